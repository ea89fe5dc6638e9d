(** What a sweep yields, without reference to its invariant.  Proof support
    only, no part of /repo is modelled here. *)
From Coq Require Import Permutation Sorted.
From Verif Require Import QcTac Geom Spec GeomFacts Relation PairFacts SweepGeo SweepInv SweepSteps Sweep SweepCmp SweepLink Linear SweepRun SweepLoop SweepStart.

(** [out] are the finished pieces in order of their finishing. *)
Record swept (l : tagged) (x_max : option Qc) (s : state) (out : list nat) : Prop := {
  sw_range : forall i, In i out -> (i < length (lefts s))%nat;
  sw_nodup : NoDup out;
  sw_plt : forall i, (i < length (lefts s))%nat -> plt (l_start (lft s i)) (end_of s i);
  sw_apart : forall i j, In i out -> (j < length (lefts s))%nat -> j <> i ->
    (forall p, on_segment p (seg_of s i) -> on_segment p (seg_of s j) -> endpoint p (seg_of s i) /\ endpoint p (seg_of s j))
    \/ (In j out /\ seg_of s i = seg_of s j /\ l_first (lft s i) <> l_first (lft s j) /\ next_to i j out);
  sw_rest : forall i, (i < length (lefts s))%nat -> ~ In i out -> exists x, x_max = Some x /\ x < px (end_of s i);
  sw_src : exists src,
    (forall i, (i < length (lefts s))%nat -> exists sg, nth_error l (src i) = Some (l_first (lft s i), sg)
       /\ l_interior (lft s i) = negb (pt_ltb (s_end sg) (s_start sg)) /\ within (seg_of s i) sg)
    /\ (forall k b sg p, nth_error l k = Some (b, sg) -> on_segment p sg ->
         exists i, (i < length (lefts s))%nat /\ src i = k /\ on_segment p (seg_of s i))
}.
(** [pl] are the processed events. *)
Record processed (x_max : option Qc) (s : state) (out : list nat) (pl : list event) : Prop := {
  pr_wf : length (rights s) = length (lefts s)
    /\ (forall i, (i < length (lefts s))%nat ->
         (l_right (lft s i) < length (rights s))%nat /\ r_left (rgt s (l_right (lft s i))) = i)
    /\ (forall r, (r < length (rights s))%nat ->
         (r_left (rgt s r) < length (lefts s))%nat /\ l_right (lft s (r_left (rgt s r))) = r);
  pr_range : forall ev, In ev pl -> in_range s ev;
  pr_nodup : NoDup pl;
  pr_out : forall r, (r < length (rights s))%nat -> (In (ER r) pl <-> In (r_left (rgt s r)) out);
  pr_left : forall i, In i out -> In (EL i) pl;
  pr_rest : forall ev, in_range s ev -> ~ In ev pl -> exists x, x_max = Some x /\ x < px (ev_start s ev);
  pr_near : forall ev x, In ev pl -> x_max = Some x -> px (ev_start s ev) <= x;
  pr_sorted : StronglySorted (fun a b => ple (ev_start s a) (ev_start s b)) pl
}.

Lemma next_to_rev : forall (A : Type) (x y : A) l, next_to x y l -> next_to x y (rev l).
Proof.
  intros A x y l (l1 & l2 & [-> | ->]); rewrite rev_app_distr; cbn; rewrite <- !app_assoc; exists (rev l2), (rev l1); [right|left]; reflexivity.
Qed.

Section End.
Variables (l : tagged) (s0 : state).
Hypothesis Hf : filled l s0.
Hypothesis Hl : lawful l.
Variable e : Qc.
Notation P := (relevant_points s0).
Hypothesis Hsh : Sheared e P.
Variable x_max : option Qc.
Notation stop := (beyond x_max).
Notation V := (V e P).
Notation Ts := (Ts e P).
Notation abs := (abs e).
Notation pc := (pc e).

Lemma pc_endpoint : forall s i p, lo (pc s i) < hi (pc s i) -> on_segment p (seg_of s i) -> tip (pc s i) (pos e p) ->
  endpoint p (seg_of s i).
Proof.
  intros s i p Hi Hp [H|H]; [left|right]; cbn [seg_of s_start s_end]; apply (st_on_ends e s i p Hi Hp); exact H.
Qed.

(** A time beyond all processed events. *)
Lemma final_time : forall T s pl sf, good e P s0 T s pl -> going stop s pl -> ended e P stop s pl sf ->
  exists T', inv e P T' s (finished s pl) /\ (forall ev, In ev pl -> pos e (ev_start s ev) < T')
  /\ (forall ev, In ev (queue s) -> T' <= pos e (ev_start s ev) /\ exists x, x_max = Some x /\ x < px (ev_start s ev)).
Proof.
  intros T s pl sf Hk Hg He. pose proof (k_inv _ _ _ _ _ _ Hk) as Hi. pose proof (i_wf _ _ _ _ _ Hi) as Hw.
  pose proof (b_geo V Ts _ _ (i_base _ _ _ _ _ Hi)) as Hgeo.
  assert (Ht : forall ev, in_range s ev -> time_of e s ev = pos e (ev_start s ev)).
  { intros ev R. rewrite (ev_start_pos e s ev Hw R). unfold time_of, ev_time. rewrite evn_left. reflexivity. }
  destruct He as [(Hq & _)|(ev & Hin & Hs & Hle & Hi' & _)].
  - exists (T + 1). split; [|split].
    + apply (inv_forward e P T); [exact Hi|qlra|]. rewrite Hq. intros ev [].
    + intros ev H. pose proof (k_time _ _ _ _ _ _ Hk ev H). qlra.
    + rewrite Hq. intros ev [].
  - exists (time_of e s ev). pose proof (w_q s Hw ev Hin) as R. split; [exact Hi'|].
    pose proof (st_ev_start e P Hsh s _ Hw Hgeo ev R) as In1. split.
    + intros ev' H. apply (k_pl _ _ _ _ _ _ Hk) in H as (R' & Nq).
      pose proof (st_ev_start e P Hsh s _ Hw Hgeo ev' R') as In2.
      assert (Hin' : In ev' pl) by (apply (k_pl _ _ _ _ _ _ Hk); split; assumption).
      pose proof (k_time _ _ _ _ _ _ Hk ev' Hin') as K1. pose proof (time_after e P T s _ ev Hi Hin) as K2.
      destruct (Qcle_lt_or_eq _ _ (Qcle_trans _ _ _ K1 K2)) as [K|K]; [exact K|exfalso].
      rewrite (Ht ev R) in K. apply (sheared_eq e P Hsh _ _ In2 In1) in K.
      pose proof (Hg ev' Hin') as J. rewrite K in J. congruence.
    + intros ev' H. pose proof (w_q s Hw ev' H) as R'. rewrite <- (Ht ev' R'). split; [exact (Hle ev' H)|].
      unfold beyond in Hs. destruct x_max as [x|]; [|discriminate Hs]. exists x. split; [reflexivity|].
      destruct (Qc_ltb_spec x (px (ev_start s ev))) as [K|K]; [|discriminate Hs].
      pose proof (st_ev_start e P Hsh s _ Hw Hgeo ev' R') as In2.
      pose proof (Hle ev' H) as L. rewrite (Ht ev R), (Ht ev' R') in L. apply (sheared_le e P Hsh _ _ In1 In2) in L.
      apply ple_lt_eq in L. destruct L as [L|<-]; [|exact K]. destruct L as [L|(L & _)]; qlra.
Qed.

Lemma final_swept : forall T s pl sf, good e P s0 T s pl -> going stop s pl -> ended e P stop s pl sf ->
  swept l x_max sf (rev (finished s pl)) /\ processed x_max sf (rev (finished s pl)) pl.
Proof.
  intros T s pl sf Hk Hg He. destruct (final_time T s pl sf Hk Hg He) as (T' & Hi & Hpast & Hrest).
  assert (Es : lefts sf = lefts s /\ rights sf = rights s).
  { destruct He as [(_ & ->)|(ev & _ & _ & _ & _ & ->)]; split; reflexivity. }
  assert (Hsf : swept l x_max s (rev (finished s pl)) /\ processed x_max s (rev (finished s pl)) pl).
  { pose proof Hi as [Hw Hb _ _ _]. pose proof (b_geo V Ts _ _ Hb) as Hgeo. pose proof (b_q V Ts _ _ Hb) as Hq.
    assert (Hlen : forall i, (i < length (lefts s))%nat -> lo (pc s i) < hi (pc s i)) by exact (g_len V Ts _ Hgeo).
    assert (Hout : forall i, In i (rev (finished s pl)) <-> done (abs s (finished s pl)) i) by (intro i; symmetry; apply in_rev).
    assert (Hrange : forall i, In i (rev (finished s pl)) -> (i < length (lefts s))%nat).
    { intros i H. apply Hout in H. exact (done_lt _ _ Hq H). }
    assert (Hend : forall i, (i < length (lefts s))%nat -> end_of s i = ev_start s (ER (l_right (lft s i)))) by reflexivity.
    assert (Hdone_end : forall i, done (abs s (finished s pl)) i -> hi (pc s i) < T').
    { intros i D. pose proof (done_lt _ _ Hq D) as Li. apply (q_done _ Hq) in D. destruct D as (_ & D).
      destruct (w_lr s Hw i Li) as (K1 & K2).
      assert (In (ER (l_right (lft s i))) pl).
      { apply (k_pl _ _ _ _ _ _ Hk). split; [exact K1|]. intro J. apply D. pose proof (event_pending e s (finished s pl) _ J) as K.
        rewrite K2 in K. exact K. }
      exact (Hpast _ H). }
    split.
    - constructor.
      + exact Hrange.
      + apply NoDup_rev. exact (q_vo _ Hq).
      + exact (st_plt e P Hsh s _ Hgeo).
      + intros i j Hi' Hj Hn. apply Hout in Hi' as Di. pose proof (Hdone_end i Di) as Hie. pose proof (Hrange i Hi') as Li.
        pose proof (Hlen i Li) as Gi. pose proof (Hlen j Hj) as Gj.
        assert (Hcase : apart (pc s i) (pc s j) \/ (twin (pc s i) (pc s j) /\ hi (pc s i) = hi (pc s j) /\ seen (abs s (finished s pl)) j)).
        { assert (Dtw : {twin (pc s i) (pc s j) /\ hi (pc s i) = hi (pc s j)} + {~ (twin (pc s i) (pc s j) /\ hi (pc s i) = hi (pc s j))}).
          { unfold twin, coll.
            destruct (Qc_eq_dec (sl (pc s i)) (sl (pc s j))), (Qc_eq_dec (ic (pc s i)) (ic (pc s j))),
              (Qc_eq_dec (lo (pc s i)) (lo (pc s j))), (bool_dec (op (pc s i)) (op (pc s j))),
              (Qc_eq_dec (hi (pc s i)) (hi (pc s j))); [..]; tauto. }
          assert (Dseen : seen (abs s (finished s pl)) j \/ future (abs s (finished s pl)) j).
          { destruct (in_dec Nat.eq_dec j (line s)) as [A|A]; [left; left; exact A|].
            destruct (in_dec Nat.eq_dec j (finished s pl)) as [D|D]; [left; right; exact D|right].
            assert (Pj : pending (abs s (finished s pl)) j).
            { destruct (in_dec (fun a b => match event_eqb_spec a b with ReflectT _ H => left H | ReflectF _ H => right H end)
                          (ER (l_right (lft s j))) (queue s)) as [K|K].
              - pose proof (event_pending e s (finished s pl) _ K) as K'. rewrite (proj2 (w_lr s Hw j Hj)) in K'. exact K'.
              - exfalso. apply D. apply (q_done _ Hq). split; [exact Hj|]. intro J. apply K. exact (pending_event e s _ j Hw J). }
            destruct (in_dec (fun a b => match event_eqb_spec a b with ReflectT _ H => left H | ReflectF _ H => right H end)
                        (EL j) (queue s)) as [K|K]; [apply future_event; exact K|].
            exfalso. apply A. apply (q_act _ Hq). split; [exact Pj|]. intro J. apply K. apply (future_event e s (finished s pl)). exact J. }
          destruct Dseen as [Sj|Fj].
          - destruct Dtw as [(D1 & D2)|D]; [right; split; [exact D1|split; [exact D2|exact Sj]]|left].
            intros t Ti Tj E. destruct (b_past V Ts _ _ Hb i j t (not_eq_sym Hn) (or_intror Di) Sj) as [K|(K1 & K2)]; try assumption.
            + destruct Ti as (_ & Ti). qlra.
            + exfalso. apply D. split; [exact K1|]. destruct K2 as [K2|(K2 & _)]; [exact K2|]. cbn [SweepLink.abs vp] in K2. qlra.
          - left. intros t (_ & T2) (T3 & _) E. pose proof (b_fut V Ts _ _ Hb j Fj) as K. cbn [SweepLink.abs vp] in K. qlra. }
        destruct Hcase as [Hap|(Htw & Hh & Sj)].
        * left. intros p Pi Pj. apply (pc_on e s i p Gi) in Pi as Qi. apply (pc_on e s j p Gj) in Pj as Qj.
          destruct Qi as (Q1 & Q2), Qj as (Q3 & Q4). destruct (Hap (pos e p) Q1 Q3 (eq_trans (eq_sym Q2) Q4)) as (T1 & T2).
          split; [exact (pc_endpoint s i p Gi Pi T1)|exact (pc_endpoint s j p Gj Pj T2)].
        * right. destruct Htw as (Hc & Hlo & Ho).
          assert (Dj : done (abs s (finished s pl)) j).
          { destruct Sj as [A|D]; [exfalso|exact D]. pose proof (b_act V Ts _ _ Hb j A) as (_ & K). cbn [SweepLink.abs vp] in K. qlra. }
          split; [apply Hout; exact Dj|]. split; [|split; [exact Ho|]].
          -- unfold seg_of. f_equal.
             ++ apply (pos_inj e); [exact Hlo|]. pose proof (pc_ht_lo e s i) as K1. pose proof (pc_ht_lo e s j) as K2.
                rewrite <- K1, <- K2, Hlo. apply coll_ht. exact Hc.
             ++ apply (pos_inj e); [exact Hh|]. pose proof (pc_ht_hi e s i Gi) as K1. pose proof (pc_ht_hi e s j Gj) as K2.
                rewrite <- K1, <- K2, Hh. apply coll_ht. exact Hc.
          -- apply next_to_rev. apply (b_out V Ts _ _ Hb i j (not_eq_sym Hn) Di Dj (conj Hc (conj Hlo Ho)) Hh).
      + intros i Hi' Hno. destruct (w_lr s Hw i Hi') as (K1 & K2).
        assert (K : In (ER (l_right (lft s i))) (queue s)).
        { destruct (in_dec (fun a b => match event_eqb_spec a b with ReflectT _ H => left H | ReflectF _ H => right H end)
                      (ER (l_right (lft s i))) (queue s)) as [K|K]; [exact K|].
          exfalso. apply Hno. apply Hout. apply (q_done _ Hq). split; [exact Hi'|]. intro J. apply K. exact (pending_event e s _ i Hw J). }
        exact (proj2 (Hrest _ K)).
      + destruct (k_src _ _ _ _ _ _ Hk) as (src & S1 & S2). exists src. split.
        * intros i Hi'. destruct (S1 i Hi') as (Hj & F1 & F2 & F3).
          destruct (in_tag l s0 Hf _ Hj) as (b & sg & E). destruct (init_seg l s0 Hf _ b sg E) as (E1 & E2).
          exists sg. split; [rewrite F1, E2; exact E|]. split.
          -- rewrite F2, (f_left _ _ Hf _ b sg E). reflexivity.
          -- intros p Hp. apply (init_on l s0 Hf _ b sg p E). apply F3. exact Hp.
        * intros k b sg p E Hp. apply S2; [rewrite (f_lefts _ _ Hf); apply nth_error_Some; congruence|].
          apply (init_on l s0 Hf k b sg p E). exact Hp.
    - constructor.
      + split; [exact (w_len s Hw)|]. split; [exact (w_lr s Hw)|exact (w_rl s Hw)].
      + intros ev H. apply (k_pl _ _ _ _ _ _ Hk) in H. apply H.
      + exact (k_nodup _ _ _ _ _ _ Hk).
      + intros r Hr. rewrite Hout. rewrite (k_pl _ _ _ _ _ _ Hk). split.
        * intros (_ & H). apply (q_done _ Hq). split; [exact (proj1 (w_rl s Hw r Hr))|]. intro J. apply H.
          pose proof (pending_event e s _ _ Hw J) as K. rewrite (proj2 (w_rl s Hw r Hr)) in K. exact K.
        * intro D. split; [exact Hr|]. intro J. apply (q_done _ Hq) in D. apply (proj2 D). exact (event_pending e s _ r J).
      + intros i H. apply Hout in H. apply (k_pl _ _ _ _ _ _ Hk). split; [exact (done_lt _ _ Hq H)|].
        intro J. apply (q_done _ Hq) in H. apply (proj2 H). apply (q_left _ Hq). apply future_event. exact J.
      + intros ev R H. apply Hrest.
        destruct (in_dec (fun a b => match event_eqb_spec a b with ReflectT _ H => left H | ReflectF _ H => right H end)
                    ev (queue s)) as [K|K]; [exact K|]. exfalso. apply H. apply (k_pl _ _ _ _ _ _ Hk). split; assumption.
      + intros ev x H Ex. pose proof (Hg ev H) as K. rewrite Ex in K. cbn in K.
        destruct (Qc_ltb_spec x (px (ev_start s ev))) as [J|J]; [discriminate K|]. qlra.
      + pose proof (k_sorted _ _ _ _ _ _ Hk) as So.
        assert (Rg : forall ev, In ev pl -> In (ev_start s ev) P).
        { intros ev H. apply (k_pl _ _ _ _ _ _ Hk) in H. exact (st_ev_start e P Hsh s _ Hw Hgeo ev (proj1 H)). }
        clear - So Rg Hsh. induction So as [|x m So IH F]; constructor.
        * apply IH. intros ev H. apply Rg. right. exact H.
        * apply Forall_forall. intros y Hy. rewrite Forall_forall in F.
          apply (sheared_le e P Hsh _ _ (Rg x (or_introl eq_refl)) (Rg y (or_intror Hy))). exact (F y Hy). }
  destruct Es as (E1 & E2). destruct s as [ls rs q li], sf as [ls' rs' q' li']. cbn in E1, E2. subst ls' rs'.
  destruct Hsf as (A & B). split.
  - destruct A. constructor; assumption.
  - destruct B. constructor; assumption.
Qed.
End End.

(** ** Sweeps *)
Theorem linear_sweep : forall first second x_max, lawful (tag first second) ->
  exists s out pl, swept (tag first second) x_max s out /\ processed x_max s out pl
  /\ (forall o, sweep_lefts o (beyond x_max) first second = Ok (s, map EL out))
  /\ (forall o, sweep_all o (beyond x_max) first second = Ok (s, pl)).
Proof.
  intros first second x_max Hl. pose proof (filled_linear first second) as Hf.
  destruct (shear_exists (relevant_points (fill_linear first second))) as (e & _ & Hsh).
  destruct (init_good _ _ Hf Hl e Hsh) as (T0 & Hk & Hm).
  assert (Hn : length (tag first second) = (length first + length second)%nat) by (unfold tag; rewrite app_length, !map_length; reflexivity).
  rewrite Hn in Hm.
  destruct (run_linear e _ Hsh _ (beyond x_max) (enough (length first + length second)) T0 _ [] Hk) as
    (T & s & pl & sf & Hk' & Hg & He & R1 & R2).
  - intros ev [].
  - lia.
  - destruct (final_swept _ _ Hf e Hsh x_max T s pl sf Hk' Hg He) as (H1 & H2).
    exists sf, (rev (finished s pl)), pl. split; [exact H1|]. split; [exact H2|]. split.
    + intro o. exact (R1 o 0%nat).
    + intro o. exact (R2 o 0%nat).
Qed.
