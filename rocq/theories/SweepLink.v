(** Link between the sweep model and its abstract view: divisions, detection
    of intersections, steps of the sweep.  Proof support only, no part of
    /repo is modelled here. *)
From Coq Require Import Permutation.
From Verif Require Import QcTac Geom Spec GeomFacts Relation PairFacts PairProofs SweepGeo SweepInv SweepSteps Sweep SweepCmp.

(** ** Stores *)
Lemma update_length : forall A (l : list A) i f, length (update l i f) = length l.
Proof. induction l as [|x l IH]; intros [|i] f; cbn; try reflexivity. rewrite IH. reflexivity. Qed.
Lemma nth_update_same : forall A (l : list A) i f d, (i < length l)%nat -> nth i (update l i f) d = f (nth i l d).
Proof. induction l as [|x l IH]; intros [|i] f d H; cbn in *; try lia; [reflexivity|]. apply IH. lia. Qed.
Lemma nth_update_other : forall A (l : list A) i j f d, i <> j -> nth j (update l i f) d = nth j l d.
Proof.
  induction l as [|x l IH]; intros [|i] [|j] f d H; cbn; try reflexivity; try congruence.
  apply IH. congruence.
Qed.

Section Divide.
Variables (s : state) (i : nat) (p : point).
Hypothesis Hw : wf s.
Hypothesis Hi : (i < length (lefts s))%nat.
Notation s' := (divide i p s).
Notation n := (length (lefts s)).

Lemma div_lefts : length (lefts s') = S n.
Proof. unfold divide. cbn. rewrite app_length, update_length. cbn. lia. Qed.
Lemma div_rights : length (rights s') = S n.
Proof. unfold divide. cbn. rewrite app_length, update_length, (w_len s Hw). cbn. lia. Qed.
Lemma div_lft_i : lft s' i = set_right n (lft s i).
Proof.
  unfold divide, lft. cbn. rewrite app_nth1 by (rewrite update_length; exact Hi).
  rewrite nth_update_same by exact Hi. rewrite (w_len s Hw). reflexivity.
Qed.
Lemma div_lft_other : forall j, (j < n)%nat -> j <> i -> lft s' j = lft s j.
Proof.
  intros j Hj Hn. unfold divide, lft. cbn. rewrite app_nth1 by (rewrite update_length; exact Hj).
  apply nth_update_other. congruence.
Qed.
Lemma div_lft_tail : lft s' n = LeftEvent p (l_right (lft s i)) (l_first (lft s i)) (l_interior (lft s i)) false false NONE false None.
Proof.
  unfold divide, lft. cbn. rewrite app_nth2 by (rewrite update_length; lia).
  rewrite update_length. rewrite Nat.sub_diag. reflexivity.
Qed.
Lemma div_rgt_old : rgt s' (l_right (lft s i)) = RightEvent (end_of s i) n.
Proof.
  pose proof (proj1 (w_lr s Hw i Hi)) as H.
  unfold divide, rgt. cbn. rewrite app_nth1 by (rewrite update_length; exact H).
  rewrite nth_update_same by exact H. reflexivity.
Qed.
Lemma div_rgt_other : forall r, (r < n)%nat -> r <> l_right (lft s i) -> rgt s' r = rgt s r.
Proof.
  intros r Hr Hn. unfold divide, rgt. cbn.
  rewrite app_nth1 by (rewrite update_length, (w_len s Hw); exact Hr).
  apply nth_update_other. congruence.
Qed.
Lemma div_rgt_mid : rgt s' n = RightEvent p i.
Proof.
  unfold divide, rgt. cbn. rewrite app_nth2; rewrite update_length, (w_len s Hw); [|lia].
  rewrite Nat.sub_diag. reflexivity.
Qed.
Lemma div_rgt_start : forall r, (r < n)%nat -> r_start (rgt s' r) = r_start (rgt s r).
Proof.
  intros r Hr. destruct (Nat.eq_dec r (l_right (lft s i))) as [->|K]; [rewrite div_rgt_old; reflexivity|].
  rewrite div_rgt_other by assumption. reflexivity.
Qed.
Lemma div_end_i : end_of s' i = p.
Proof. unfold end_of. rewrite div_lft_i. cbn [set_right l_right l_start l_first r_start r_left]. rewrite div_rgt_mid. reflexivity. Qed.
Lemma div_end_tail : end_of s' n = end_of s i.
Proof. unfold end_of. rewrite div_lft_tail. cbn [set_right l_right l_start l_first r_start r_left]. rewrite div_rgt_old. reflexivity. Qed.
Lemma div_end_other : forall j, (j < n)%nat -> j <> i -> end_of s' j = end_of s j.
Proof.
  intros j Hj Hn. unfold end_of. rewrite div_lft_other by assumption. apply div_rgt_start.
  pose proof (proj1 (w_lr s Hw j Hj)). rewrite (w_len s Hw) in H. exact H.
Qed.

Lemma div_wf : wf s'.
Proof.
  constructor.
  - rewrite div_rights, div_lefts. reflexivity.
  - rewrite div_lefts, div_rights. intros j Hj. destruct (Nat.eq_dec j n) as [->|Hn].
    + rewrite div_lft_tail. cbn [set_right l_right l_start l_first r_start r_left]. rewrite div_rgt_old. pose proof (proj1 (w_lr s Hw i Hi)) as K.
      rewrite (w_len s Hw) in K. split; [lia|reflexivity].
    + destruct (Nat.eq_dec j i) as [->|Hni].
      * rewrite div_lft_i. cbn [set_right l_right l_start l_first r_start r_left]. rewrite div_rgt_mid. split; [lia|reflexivity].
      * assert (Hj' : (j < n)%nat) by (lia). rewrite (div_lft_other j Hj' Hni).
        destruct (w_lr s Hw j Hj') as (K1 & K2). rewrite (w_len s Hw) in K1.
        split; [lia|]. rewrite div_rgt_other; [exact K2|exact K1|].
        intro E. apply Hni. rewrite <- K2, E. exact (proj2 (w_lr s Hw i Hi)).
  - rewrite div_lefts, div_rights. intros r Hr. destruct (Nat.eq_dec r n) as [->|Hn].
    + rewrite div_rgt_mid. cbn [set_right l_right l_start l_first r_start r_left]. rewrite div_lft_i. split; [lia|reflexivity].
    + assert (Hr' : (r < n)%nat) by (lia).
      destruct (Nat.eq_dec r (l_right (lft s i))) as [->|Hni].
      * rewrite div_rgt_old. cbn [set_right l_right l_start l_first r_start r_left]. rewrite div_lft_tail. split; [lia|reflexivity].
      * rewrite (div_rgt_other r Hr' Hni).
        assert (Hr2 : (r < length (rights s))%nat) by (rewrite (w_len s Hw); exact Hr').
        destruct (w_rl s Hw r Hr2) as (K1 & K2). split; [lia|].
        rewrite div_lft_other; [exact K2|exact K1|]. intro E. apply Hni. rewrite <- E. symmetry. exact K2.
  - intros ev Hev. cbn in Hev. unfold in_range. destruct Hev as [<-|[<-|Hev]].
    + rewrite div_rights, (w_len s Hw). lia.
    + rewrite div_lefts. lia.
    + pose proof (w_q s Hw ev Hev) as K. destruct ev; cbn in K; [rewrite div_lefts|rewrite div_rights; rewrite (w_len s Hw) in K]; lia.
Qed.

(** Events keep their meaning, except for the right event of the divided one. *)
Lemma div_evn : forall ev, in_range s ev -> ev <> ER (l_right (lft s i)) -> evn s' ev = evn s ev.
Proof.
  intros [j|r] H Hn; [reflexivity|]. cbn in H. cbn [evn]. rewrite div_rgt_other; [reflexivity|rewrite <- (w_len s Hw); exact H|congruence].
Qed.
Lemma div_evn_old : evn s' (ER (l_right (lft s i))) = (false, n).
Proof. cbn [evn]. rewrite div_rgt_old. reflexivity. Qed.
Lemma div_nodup : NoDup (queue s) -> NoDup (queue s').
Proof.
  intro H. cbn. constructor; [|constructor; [|exact H]].
  - intros [K|K]; [discriminate K|]. pose proof (w_q s Hw _ K) as R. cbn in R. lia.
  - intro K. pose proof (w_q s Hw _ K) as R. cbn in R. lia.
Qed.
Lemma div_pending_i : In (ER (l_right (lft s' i))) (queue s').
Proof. rewrite div_lft_i. cbn. left. rewrite (w_len s Hw). reflexivity. Qed.
Lemma div_pending_other : forall j, (j < n)%nat -> j <> i -> In (ER (l_right (lft s j))) (queue s) ->
  In (ER (l_right (lft s' j))) (queue s').
Proof. intros j Hj Hn H. rewrite div_lft_other by assumption. cbn. right. right. exact H. Qed.
End Divide.

(** ** The abstract view *)
Definition abs (e : Qc) (s : state) (vo : list nat) : view :=
  View (length (lefts s)) (pc e s) (map (evn s) (queue s)) (line s) vo.

Lemma pc_divide_head : forall e s i p, wf s -> (i < length (lefts s))%nat ->
  lo (pc e s i) < hi (pc e s i) -> inner (pc e s i) (pos e p) -> py p = ht (pc e s i) (pos e p) ->
  pc e (divide i p s) i = set_hi (pc e s i) (pos e p).
Proof.
  intros e s i p Hw Hi Hl (H1 & H2) Hp. unfold pc at 1. rewrite (div_end_i s i p Hw Hi), (div_lft_i s i p Hw Hi).
  cbn. rewrite pc_ht in Hp. unfold line_at in Hp. cbn in *.
  assert (E : slope e (l_start (lft s i)) p = slope e (l_start (lft s i)) (end_of s i)).
  { unfold slope at 1. rewrite Hp. field. intro K. qlra. }
  rewrite E. reflexivity.
Qed.
Lemma pc_divide_tail : forall e s i p, wf s -> (i < length (lefts s))%nat ->
  lo (pc e s i) < hi (pc e s i) -> inner (pc e s i) (pos e p) -> py p = ht (pc e s i) (pos e p) ->
  pc e (divide i p s) (length (lefts s)) = set_lo (pc e s i) (pos e p).
Proof.
  intros e s i p Hw Hi Hl (H1 & H2) Hp. unfold pc at 1. rewrite (div_end_tail s i p Hw Hi), (div_lft_tail s i p Hi).
  cbn. pose proof (pc_ht_hi e s i Hl) as Hh. rewrite pc_ht in Hp, Hh. unfold line_at in Hp, Hh. cbn in *.
  assert (E : slope e p (end_of s i) = slope e (l_start (lft s i)) (end_of s i)).
  { unfold slope at 1. rewrite <- Hh, Hp. set (k := slope e (l_start (lft s i)) (end_of s i)). field. intro K. qlra. }
  rewrite E. unfold set_lo. cbn. f_equal. rewrite Hp. qring.
Qed.
Lemma pc_divide_other : forall e s i p j, wf s -> (i < length (lefts s))%nat ->
  (j < length (lefts s))%nat -> j <> i -> pc e (divide i p s) j = pc e s j.
Proof.
  intros e s i p j Hw Hi Hj Hn. unfold pc. rewrite (div_end_other s i p Hw Hi j Hj Hn), (div_lft_other s i p j Hj Hn). reflexivity.
Qed.

Lemma map_perm_change : forall (A B : Type) (f g : A -> B) l x y, NoDup l -> In x l ->
  (forall z, In z l -> z <> x -> f z = g z) -> f x = y ->
  Permutation (g x :: map f l) (y :: map g l).
Proof.
  intros A B f g l x y Hn Hx Hf Hy. apply in_split in Hx. destruct Hx as (l1 & l2 & ->).
  assert (H1 : map f l1 = map g l1).
  { apply map_ext_in. intros z Hz. apply Hf; [apply in_or_app; left; exact Hz|].
    intros ->. apply (NoDup_remove_2 _ _ _ Hn). apply in_or_app. left. exact Hz. }
  assert (H2 : map f l2 = map g l2).
  { apply map_ext_in. intros z Hz. apply Hf; [apply in_or_app; right; right; exact Hz|].
    intros ->. apply (NoDup_remove_2 _ _ _ Hn). apply in_or_app. right. exact Hz. }
  rewrite !map_app. cbn. rewrite H1, H2, Hy.
  transitivity (y :: g x :: map g l1 ++ map g l2).
  - transitivity (g x :: y :: map g l1 ++ map g l2); [|apply perm_swap].
    apply perm_skip. symmetry. apply Permutation_middle.
  - apply perm_skip. apply Permutation_middle.
Qed.

Lemma queue_nodup : forall e s vo, queues (abs e s vo) -> NoDup (queue s).
Proof. intros e s vo H. apply (NoDup_map_inv (evn s)). exact (q_nodup _ H). Qed.
Lemma pending_event : forall e s vo i, wf s -> pending (abs e s vo) i -> In (ER (l_right (lft s i))) (queue s).
Proof.
  intros e s vo i Hw H. unfold pending in H. cbn in H. apply in_map_iff in H. destruct H as (ev & He & Hq).
  destruct ev as [j|r]; cbn in He; [discriminate He|]. injection He as <-.
  rewrite (proj2 (w_rl s Hw r (w_q s Hw _ Hq))). exact Hq.
Qed.
Lemma event_pending : forall e s vo r, In (ER r) (queue s) -> pending (abs e s vo) (r_left (rgt s r)).
Proof. intros e s vo r H. unfold pending. cbn. apply in_map_iff. exists (ER r). split; [reflexivity|exact H]. Qed.
Lemma future_event : forall e s vo i, future (abs e s vo) i <-> In (EL i) (queue s).
Proof.
  intros e s vo i. unfold future. cbn. rewrite in_map_iff. split.
  - intros ([j|r] & He & Hq); cbn in He; [|discriminate He]. injection He as <-. exact Hq.
  - intro H. exists (EL i). split; [reflexivity|exact H].
Qed.

Lemma divide_cut : forall e s vo i p, wf s -> NoDup (queue s) -> (i < length (lefts s))%nat ->
  In (ER (l_right (lft s i))) (queue s) -> lo (pc e s i) < hi (pc e s i) -> inner (pc e s i) (pos e p) ->
  py p = ht (pc e s i) (pos e p) ->
  cut (abs e s vo) i (pos e p) (abs e (divide i p s) vo).
Proof.
  intros e s vo i p Hw Hq Hi Hr Hl Hin Hht. constructor; cbn [abs vn vp vs SweepInv.vo vq].
  - exact (div_lefts s i p Hi).
  - exact (pc_divide_head e s i p Hw Hi Hl Hin Hht).
  - exact (pc_divide_tail e s i p Hw Hi Hl Hin Hht).
  - intros j Hj Hn. exact (pc_divide_other e s i p j Hw Hi Hj Hn).
  - change (Permutation (evn (divide i p s) (ER (length (rights s))) :: (true, length (lefts s)) :: map (evn (divide i p s)) (queue s))
              ((true, length (lefts s)) :: (false, length (lefts s)) :: map (evn s) (queue s))).
    rewrite (w_len s Hw). cbn [evn]. rewrite (div_rgt_mid s i p Hw Hi). cbn [r_left].
    rewrite perm_swap. apply perm_skip.
    pose proof (map_perm_change _ _ (evn (divide i p s)) (evn s) (queue s) (ER (l_right (lft s i))) (false, length (lefts s))
                  Hq Hr) as K.
    assert (E : evn s (ER (l_right (lft s i))) = (false, i)) by (cbn; rewrite (proj2 (w_lr s Hw i Hi)); reflexivity).
    rewrite E in K. apply K.
    + intros z Hz Hn. apply (div_evn s i p Hw); [exact (w_q s Hw z Hz)|exact Hn].
    + exact (div_evn_old s i p Hw Hi).
  - reflexivity.
  - reflexivity.
Qed.

(** ** Divisions *)
Inductive divs : state -> state -> Prop :=
| divs_refl : forall s, divs s s
| divs_step : forall s i p s', (i < length (lefts s))%nat -> In (ER (l_right (lft s i))) (queue s) ->
    inside_segment p (seg_of s i) -> divs (divide i p s) s' -> divs s s'.
Lemma divs_trans : forall s1 s2 s3, divs s1 s2 -> divs s2 s3 -> divs s1 s3.
Proof. intros s1 s2 s3 H. induction H; intro J; [exact J|]. econstructor; eauto. Qed.
Lemma divs_one : forall s i p, (i < length (lefts s))%nat -> In (ER (l_right (lft s i))) (queue s) ->
  inside_segment p (seg_of s i) -> divs s (divide i p s).
Proof. intros s i p H1 H2 H3. exact (divs_step s i p _ H1 H2 H3 (divs_refl _)). Qed.

Lemma st_inside : forall e s i p, lo (pc e s i) < hi (pc e s i) ->
  (inside_segment p (seg_of s i) <-> inner (pc e s i) (pos e p) /\ py p = ht (pc e s i) (pos e p)).
Proof.
  intros e s i p Hl. unfold inside_segment. rewrite (pc_on e s i p Hl). unfold has, inner. cbn [seg_of s_start s_end].
  split.
  - intros (((H1 & H2) & H3) & H4 & H5). split; [|exact H3]. split.
    + destruct (Qcle_lt_or_eq _ _ H1) as [K|K]; [exact K|exfalso]. apply H4. apply (pos_inj e); [symmetry; exact K|].
      rewrite H3, <- K. apply pc_ht_lo.
    + destruct (Qcle_lt_or_eq _ _ H2) as [K|K]; [exact K|exfalso]. apply H5. apply (pos_inj e); [exact K|].
      rewrite H3, K. exact (pc_ht_hi e s i Hl).
  - intros ((H1 & H2) & H3). split; [split; [split; qlra|exact H3]|]. split; intros ->; cbn in *; qlra.
Qed.
Lemma st_on_ends : forall e s i p, lo (pc e s i) < hi (pc e s i) -> on_segment p (seg_of s i) ->
  (p = l_start (lft s i) <-> pos e p = lo (pc e s i)) /\ (p = end_of s i <-> pos e p = hi (pc e s i)).
Proof.
  intros e s i p Hl H. apply (pc_on e s i p Hl) in H. destruct H as (H1 & H2). split; split.
  - intros ->. reflexivity.
  - intro K. apply (pos_inj e); [exact K|]. rewrite H2, K. apply pc_ht_lo.
  - intros ->. reflexivity.
  - intro K. apply (pos_inj e); [exact K|]. rewrite H2, K. exact (pc_ht_hi e s i Hl).
Qed.

(** Division of a pending piece at an inner point of it. *)
Lemma st_cut : forall e s vo i p, wf s -> NoDup (queue s) -> (i < length (lefts s))%nat -> lo (pc e s i) < hi (pc e s i) -> In (ER (l_right (lft s i))) (queue s) ->
  inner (pc e s i) (pos e p) -> py p = ht (pc e s i) (pos e p) ->
  cut (abs e s vo) i (pos e p) (abs e (divide i p s) vo) /\ wf (divide i p s) /\ NoDup (queue (divide i p s))
  /\ divs s (divide i p s).
Proof.
  intros e s vo i p Hw Hq Hi Hl Hr H1 H2. split; [exact (divide_cut e s vo i p Hw Hq Hi Hr Hl H1 H2)|].
  split; [exact (div_wf s i p Hw Hi)|]. split; [exact (div_nodup s i p Hw Hi Hq)|].
  apply divs_one; [exact Hi|exact Hr|]. apply (st_inside e s i p Hl). split; assumption.
Qed.
(** ** Relevant points *)
Section Frame.
Variables (e : Qc) (P : list point).
Hypothesis Hsh : Sheared e P.

Definition V (t : Qc) : Qc :=
  match find (fun p => Qc_eqb (pos e p) t) P with Some p => py p | None => 0 end.
Definition Ts : list Qc := map (pos e) P.

Lemma V_pos : forall p, In p P -> V (pos e p) = py p.
Proof.
  intros p H. unfold V. destruct (find (fun q => Qc_eqb (pos e q) (pos e p)) P) as [q|] eqn:E.
  - apply find_some in E. destruct E as (E1 & E2). destruct (Qc_eqb_spec (pos e q) (pos e p)) as [K|K]; [|discriminate E2].
    apply (sheared_eq e P Hsh q p E1 H) in K. rewrite K. reflexivity.
  - exfalso. pose proof (find_none _ _ E p H) as K. cbn in K. destruct (Qc_eqb_spec (pos e p) (pos e p)); congruence.
Qed.
Lemma relevant : forall p, In (pos e p) Ts -> py p = V (pos e p) -> In p P.
Proof.
  intros p H J. unfold Ts in H. apply in_map_iff in H. destruct H as (q & Hq & Hin).
  rewrite <- Hq, (V_pos q Hin) in J. rewrite <- (pos_inj e q p Hq (eq_sym J)). exact Hin.
Qed.

Section State.
Variables (s : state) (vo : list nat).
Hypothesis Hw : wf s.
Hypothesis Hg : geo V Ts (abs e s vo).
Notation n := (length (lefts s)).

Lemma st_len : forall i, (i < n)%nat -> lo (pc e s i) < hi (pc e s i).
Proof. exact (g_len V Ts _ Hg). Qed.
Lemma st_start : forall i, (i < n)%nat -> In (l_start (lft s i)) P.
Proof.
  intros i Hi. destruct (g_lo V Ts _ Hg i Hi) as (H1 & H2). apply relevant; [exact H2|].
  cbn [abs vp] in H1. rewrite pc_ht_lo in H1. exact H1.
Qed.
Lemma st_end : forall i, (i < n)%nat -> In (end_of s i) P.
Proof.
  intros i Hi. destruct (g_hi V Ts _ Hg i Hi) as (H1 & H2). apply relevant; [exact H2|].
  cbn [abs vp] in H1. rewrite (pc_ht_hi e s i (st_len i Hi)) in H1. exact H1.
Qed.
Lemma st_plt : forall i, (i < n)%nat -> plt (l_start (lft s i)) (end_of s i).
Proof. intros i Hi. apply (sheared_lt e P Hsh _ _ (st_start i Hi) (st_end i Hi)). exact (st_len i Hi). Qed.
Lemma st_proper : forall i, (i < n)%nat -> proper (seg_of s i).
Proof. intros i Hi. exact (plt_neq _ _ (st_plt i Hi)). Qed.
Lemma st_ev_start : forall ev, in_range s ev -> In (ev_start s ev) P.
Proof.
  intros [i|r] H; [exact (st_start i H)|]. cbn in H. destruct (w_rl s Hw r H) as (K1 & K2).
  pose proof (st_end _ K1) as K. unfold end_of in K. rewrite K2 in K. exact K.
Qed.

End State.
(** ** Detection of intersections *)
Section Detect.
Variables (s : state) (vo : list nat).
Hypothesis Hw : wf s.
Hypothesis Hg : geo V Ts (abs e s vo).
Hypothesis Hq : NoDup (queue s).
Notation n := (length (lefts s)).
Notation v := (abs e s vo).

Lemma key_lefts : forall i j, l_start (lft s i) <> l_start (lft s j) ->
  binary_key_ltb s (EL i) (EL j) = pt_ltb (l_start (lft s i)) (l_start (lft s j)).
Proof.
  intros i j H. rewrite key_unfold. cbn [ev_start]. destruct (pt_eqb_spec (l_start (lft s i)) (l_start (lft s j))); [contradiction|reflexivity].
Qed.
Lemma key_rights : forall i j, end_of s i <> end_of s j ->
  binary_key_ltb s (ER (l_right (lft s i))) (ER (l_right (lft s j))) = pt_ltb (end_of s i) (end_of s j).
Proof.
  intros i j H. rewrite key_unfold. cbn [ev_start]. unfold end_of in *.
  match goal with |- context [pt_eqb ?a ?b] => destruct (pt_eqb_spec a b); [contradiction|reflexivity] end.
Qed.

Lemma collinear_coll : forall a b, (a < n)%nat -> (b < n)%nat ->
  collinear4 (norm (seg_of s a)) (norm (seg_of s b)) -> coll (pc e s a) (pc e s b).
Proof.
  intros a b Ha Hb (H1 & H2). unfold norm in *. cbn [s_start s_end] in *.
  destruct (norm_id _ _ (st_plt s vo Hg a Ha)) as (A1 & A2). destruct (norm_id _ _ (st_plt s vo Hg b Hb)) as (B1 & B2).
  unfold seg_of in *. rewrite A1, A2, B1, B2 in *.
  pose proof (st_len s vo Hg a Ha) as La. pose proof (st_len s vo Hg b Hb) as Lb.
  assert (K : forall t, ht (pc e s a) t = ht (pc e s b) t).
  { intro t. rewrite !pc_ht. apply line_collinear; [exact Lb| |exact H1|exact H2]. cbn in La. intro K. rewrite K in La. qlra. }
  apply (ht_two _ _ 0 1); [intro E; discriminate E|apply K|apply K].
Qed.

Section Pair.
Variables (a b : nat).
Hypothesis Ha : (a < n)%nat.
Hypothesis Hb : (b < n)%nat.
Hypothesis Hab : a <> b.
Hypothesis Ra : In (ER (l_right (lft s a))) (queue s).
Hypothesis Rb : In (ER (l_right (lft s b))) (queue s).
Let La : lo (pc e s a) < hi (pc e s a) := st_len s vo Hg a Ha.
Let Lb : lo (pc e s b) < hi (pc e s b) := st_len s vo Hg b Hb.

(** Pieces on one line sharing a sub-segment. *)
Lemma detect_overlap : coll (pc e s a) (pc e s b) -> lo (pc e s a) < hi (pc e s b) -> lo (pc e s b) < hi (pc e s a) ->
  (match segments_relation (seg_of s a) (seg_of s b) with CROSS | TOUCH | DISJOINT => False | _ => True end) ->
  exists s' f, detect Linear a b s = Ok (s', f) /\ wf s' /\ NoDup (queue s') /\ divs s s'
    /\ (detected v a b (abs e s' vo) \/ detected v b a (abs e s' vo)).
Proof.
  intros Hc H1 H2 Hrel.
  assert (Hop : op (pc e s a) <> op (pc e s b)).
  { intro K. destruct (g_over V Ts _ Hg a b Ha Hb Hab K Hc) as [J|J]; cbn [abs vp] in J; qlra. }
  assert (Hf : Bool.eqb (l_first (lft s a)) (l_first (lft s b)) = false) by (apply Bool.eqb_false_iff; exact Hop).
  assert (HtA : ht (pc e s b) (hi (pc e s a)) = py (end_of s a)) by (rewrite <- (coll_ht _ _ _ Hc); apply pc_ht_hi; exact La).
  assert (HtB : ht (pc e s a) (hi (pc e s b)) = py (end_of s b)) by (rewrite (coll_ht _ _ _ Hc); apply pc_ht_hi; exact Lb).
  assert (StA : ht (pc e s b) (lo (pc e s a)) = py (l_start (lft s a))) by (rewrite <- (coll_ht _ _ _ Hc); apply pc_ht_lo).
  assert (StB : ht (pc e s a) (lo (pc e s b)) = py (l_start (lft s b))) by (rewrite (coll_ht _ _ _ Hc); apply pc_ht_lo).
  assert (Es : forall x y, (x < n)%nat -> (y < n)%nat -> (l_start (lft s x) = l_start (lft s y) <-> lo (pc e s x) = lo (pc e s y))).
  { intros x y Hx Hy. apply (sheared_eq e P Hsh); [exact (st_start s vo Hg x Hx)|exact (st_start s vo Hg y Hy)]. }
  assert (Ee : forall x y, (x < n)%nat -> (y < n)%nat -> (end_of s x = end_of s y <-> hi (pc e s x) = hi (pc e s y))).
  { intros x y Hx Hy. apply (sheared_eq e P Hsh); [exact (st_end s vo Hg x Hx)|exact (st_end s vo Hg y Hy)]. }
  assert (Ls : forall x y, (x < n)%nat -> (y < n)%nat -> (plt (l_start (lft s x)) (l_start (lft s y)) <-> lo (pc e s x) < lo (pc e s y))).
  { intros x y Hx Hy. apply (sheared_lt e P Hsh); [exact (st_start s vo Hg x Hx)|exact (st_start s vo Hg y Hy)]. }
  assert (Le : forall x y, (x < n)%nat -> (y < n)%nat -> (plt (end_of s x) (end_of s y) <-> hi (pc e s x) < hi (pc e s y))).
  { intros x y Hx Hy. apply (sheared_lt e P Hsh); [exact (st_end s vo Hg x Hx)|exact (st_end s vo Hg y Hy)]. }
  assert (RLa : r_left (rgt s (l_right (lft s a))) = a) by exact (proj2 (w_lr s Hw a Ha)).
  assert (RLb : r_left (rgt s (l_right (lft s b))) = b) by exact (proj2 (w_lr s Hw b Hb)).
  assert (Hd : exists s' f, (if pt_eqb (l_start (lft s a)) (l_start (lft s b))
        then Ok (if pt_eqb (end_of s b) (end_of s a) then s
                 else divide (r_left (rgt s (snd (if binary_key_ltb s (ER (l_right (lft s b))) (ER (l_right (lft s a)))
                                                  then (l_right (lft s b), l_right (lft s a)) else (l_right (lft s a), l_right (lft s b))))))
                             (r_start (rgt s (fst (if binary_key_ltb s (ER (l_right (lft s b))) (ER (l_right (lft s a)))
                                                  then (l_right (lft s b), l_right (lft s a)) else (l_right (lft s a), l_right (lft s b)))))) s, true)
        else
          let '(start_min, start_max) := if binary_key_ltb s (EL b) (EL a) then (b, a) else (a, b) in
          let '(end_min, end_max) := if binary_key_ltb s (ER (l_right (lft s b))) (ER (l_right (lft s a)))
                                     then (l_right (lft s b), l_right (lft s a)) else (l_right (lft s a), l_right (lft s b)) in
          let end_min_start := r_start (rgt s end_min) in
          let end_max_left := r_left (rgt s end_max) in
          let start_max_start := l_start (lft s start_max) in
          if pt_eqb (end_of s b) (end_of s a)
          then Ok (divide start_min start_max_start s, false)
          else if Nat.eqb start_min end_max_left
          then Ok (divide start_min start_max_start (divide start_min end_min_start s), false)
          else Ok (divide start_min start_max_start (divide start_max end_min_start s), false)) = Ok (s', f)
     /\ wf s' /\ NoDup (queue s') /\ divs s s'
    /\ (detected v a b (abs e s' vo) \/ detected v b a (abs e s' vo))).
  { destruct (pt_eqb_spec (l_start (lft s a)) (l_start (lft s b))) as [E|E].
    - assert (El : lo (pc e s a) = lo (pc e s b)) by (apply Es; assumption).
      assert (Tw : twin (pc e s a) (pc e s b)) by (split; [exact Hc|split; [exact El|exact Hop]]).
      assert (Tw' : twin (pc e s b) (pc e s a)) by (split; [exact (coll_sym _ _ Hc)|split; [symmetry; exact El|congruence]]).
      destruct (pt_eqb_spec (end_of s b) (end_of s a)) as [F|F].
      + exists s, true. split; [reflexivity|]. split; [exact Hw|]. split; [exact Hq|]. split; [apply divs_refl|].
        left. apply D_same; [exact Tw|]. apply Ee; congruence.
      + rewrite (key_rights b a F). destruct (pt_ltb_spec (end_of s b) (end_of s a)) as [K|K]; cbn [fst snd].
        * rewrite RLa. change (r_start (rgt s (l_right (lft s b)))) with (end_of s b).
          apply (Le b a Hb Ha) in K.
          destruct (st_cut e s vo a (end_of s b) Hw Hq Ha La Ra) as (C & W & N & D); [split; [rewrite El; exact Lb|exact K]|symmetry; exact HtB|].
          exists (divide a (end_of s b) s), true. split; [reflexivity|]. split; [exact W|]. split; [exact N|]. split; [exact D|].
          right. apply (D_start v b a _ Tw' K C).
        * rewrite RLb. change (r_start (rgt s (l_right (lft s a)))) with (end_of s a).
          assert (K' : hi (pc e s a) < hi (pc e s b)).
          { rewrite (Le b a Hb Ha) in K. apply Qcnot_lt_le in K. destruct (Qcle_lt_or_eq _ _ K) as [J|J]; [exact J|].
            exfalso. apply F. symmetry. apply Ee; assumption. }
          destruct (st_cut e s vo b (end_of s a) Hw Hq Hb Lb Rb) as (C & W & N & D); [split; [rewrite <- El; exact La|exact K']|symmetry; exact HtA|].
          exists (divide b (end_of s a) s), true. split; [reflexivity|]. split; [exact W|]. split; [exact N|]. split; [exact D|].
          left. apply (D_start v a b _ Tw K' C).
    - assert (El : lo (pc e s a) <> lo (pc e s b)) by (intro K; apply E; apply Es; assumption).
      rewrite (key_lefts b a (not_eq_sym E)).
      destruct (pt_ltb_spec (l_start (lft s b)) (l_start (lft s a))) as [G|G].
      + apply (Ls b a Hb Ha) in G.
        destruct (pt_eqb_spec (end_of s b) (end_of s a)) as [F|F].
        * assert (Ehi : hi (pc e s b) = hi (pc e s a)) by (apply Ee; assumption).
          destruct (st_cut e s vo b (l_start (lft s a)) Hw Hq Hb Lb Rb) as (C & W & N & D); [split; [exact G|exact H1]|symmetry; exact StA|].
          destruct (if binary_key_ltb s (ER (l_right (lft s b))) (ER (l_right (lft s a))) then (l_right (lft s b), l_right (lft s a)) else (l_right (lft s a), l_right (lft s b))).
          exists (divide b (l_start (lft s a)) s), false. split; [reflexivity|]. split; [exact W|]. split; [exact N|]. split; [exact D|].
          right. apply (D_end v b a _ (coll_sym _ _ Hc) G H1 Ehi C).
        * rewrite (key_rights b a F). destruct (pt_ltb_spec (end_of s b) (end_of s a)) as [K|K]; cbn zeta.
          -- rewrite RLa. destruct (Nat.eqb_spec b a) as [J|_]; [congruence|].
             change (r_start (rgt s (l_right (lft s b)))) with (end_of s b).
             apply (Le b a Hb Ha) in K.
             destruct (st_cut e s vo a (end_of s b) Hw Hq Ha La Ra) as (C & W & N & D); [split; [exact H1|exact K]|symmetry; exact HtB|].
             assert (Pb : pc e (divide a (end_of s b) s) b = pc e s b) by (apply pc_divide_other; first [assumption|congruence]).
             destruct (st_cut e (divide a (end_of s b) s) vo b (l_start (lft s a)) W N) as (C2 & W2 & N2 & D2).
             ++ rewrite (div_lefts s a _ Ha). lia.
             ++ rewrite Pb. exact Lb.
             ++ apply div_pending_other; first [assumption|congruence].
             ++ rewrite Pb. split; [exact G|exact H1].
             ++ rewrite Pb. symmetry. exact StA.
             ++ eexists _, false. split; [reflexivity|]. split; [exact W2|]. split; [exact N2|].
                split; [exact (divs_trans _ _ _ D D2)|]. right.
                apply (D_chain v b a _ _ (coll_sym _ _ Hc) G H1 K C C2).
          -- rewrite RLb, Nat.eqb_refl. change (r_start (rgt s (l_right (lft s a)))) with (end_of s a).
             assert (K' : hi (pc e s a) < hi (pc e s b)).
             { rewrite (Le b a Hb Ha) in K. apply Qcnot_lt_le in K. destruct (Qcle_lt_or_eq _ _ K) as [J|J]; [exact J|].
               exfalso. apply F. symmetry. apply Ee; assumption. }
             destruct (st_cut e s vo b (end_of s a) Hw Hq Hb Lb Rb) as (C & W & N & D); [split; [exact H2|exact K']|symmetry; exact HtA|].
             assert (Pb : pc e (divide b (end_of s a) s) b = set_hi (pc e s b) (hi (pc e s a))).
             { apply pc_divide_head; [assumption|assumption|assumption| |symmetry; assumption]. split; [exact H2|exact K']. }
             destruct (st_cut e (divide b (end_of s a) s) vo b (l_start (lft s a)) W N) as (C2 & W2 & N2 & D2).
             ++ rewrite (div_lefts s b _ Hb). lia.
             ++ rewrite Pb. exact H2.
             ++ apply div_pending_i; assumption.
             ++ rewrite Pb. split; [exact G|exact La].
             ++ rewrite Pb. symmetry. exact StA.
             ++ eexists _, false. split; [reflexivity|]. split; [exact W2|]. split; [exact N2|].
                split; [exact (divs_trans _ _ _ D D2)|]. right.
                apply (D_cover v b a _ _ (coll_sym _ _ Hc) G H1 K' C C2).
      + assert (G' : lo (pc e s a) < lo (pc e s b)).
        { rewrite (Ls b a Hb Ha) in G. apply Qcnot_lt_le in G. destruct (Qcle_lt_or_eq _ _ G) as [J|J]; [exact J|congruence]. }
        destruct (pt_eqb_spec (end_of s b) (end_of s a)) as [F|F].
        * assert (Ehi : hi (pc e s a) = hi (pc e s b)) by (apply Ee; congruence).
          destruct (st_cut e s vo a (l_start (lft s b)) Hw Hq Ha La Ra) as (C & W & N & D); [split; [exact G'|exact H2]|symmetry; exact StB|].
          destruct (if binary_key_ltb s (ER (l_right (lft s b))) (ER (l_right (lft s a))) then (l_right (lft s b), l_right (lft s a)) else (l_right (lft s a), l_right (lft s b))).
          exists (divide a (l_start (lft s b)) s), false. split; [reflexivity|]. split; [exact W|]. split; [exact N|]. split; [exact D|].
          left. apply (D_end v a b _ Hc G' H2 Ehi C).
        * rewrite (key_rights b a F). destruct (pt_ltb_spec (end_of s b) (end_of s a)) as [K|K]; cbn zeta.
          -- rewrite RLa, Nat.eqb_refl. change (r_start (rgt s (l_right (lft s b)))) with (end_of s b).
             apply (Le b a Hb Ha) in K.
             destruct (st_cut e s vo a (end_of s b) Hw Hq Ha La Ra) as (C & W & N & D); [split; [exact H1|exact K]|symmetry; exact HtB|].
             assert (Pb : pc e (divide a (end_of s b) s) a = set_hi (pc e s a) (hi (pc e s b))).
             { apply pc_divide_head; [assumption|assumption|assumption| |symmetry; assumption]. split; [exact H1|exact K]. }
             destruct (st_cut e (divide a (end_of s b) s) vo a (l_start (lft s b)) W N) as (C2 & W2 & N2 & D2).
             ++ rewrite (div_lefts s a _ Ha). lia.
             ++ rewrite Pb. cbn [set_hi lo hi]. exact H1.
             ++ apply div_pending_i; assumption.
             ++ rewrite Pb. split; [exact G'|exact Lb].
             ++ rewrite Pb. symmetry. exact StB.
             ++ eexists _, false. split; [reflexivity|]. split; [exact W2|]. split; [exact N2|].
                split; [exact (divs_trans _ _ _ D D2)|]. left.
                apply (D_cover v a b _ _ Hc G' H2 K C C2).
          -- rewrite RLb. destruct (Nat.eqb_spec a b) as [J|_]; [congruence|].
             change (r_start (rgt s (l_right (lft s a)))) with (end_of s a).
             assert (K' : hi (pc e s a) < hi (pc e s b)).
             { rewrite (Le b a Hb Ha) in K. apply Qcnot_lt_le in K. destruct (Qcle_lt_or_eq _ _ K) as [J|J]; [exact J|].
               exfalso. apply F. symmetry. apply Ee; assumption. }
             destruct (st_cut e s vo b (end_of s a) Hw Hq Hb Lb Rb) as (C & W & N & D); [split; [exact H2|exact K']|symmetry; exact HtA|].
             assert (Pb : pc e (divide b (end_of s a) s) a = pc e s a) by (apply pc_divide_other; first [assumption|congruence]).
             destruct (st_cut e (divide b (end_of s a) s) vo a (l_start (lft s b)) W N) as (C2 & W2 & N2 & D2).
             ++ rewrite (div_lefts s b _ Hb). lia.
             ++ rewrite Pb. exact La.
             ++ apply div_pending_other; first [assumption|congruence].
             ++ rewrite Pb. split; [exact G'|exact H2].
             ++ rewrite Pb. symmetry. exact StB.
             ++ eexists _, false. split; [reflexivity|]. split; [exact W2|]. split; [exact N2|].
                split; [exact (divs_trans _ _ _ D D2)|]. left.
                apply (D_chain v a b _ _ Hc G' H2 K' C C2). }
  destruct Hd as (s' & f & Hd & Hrest). exists s', f. split; [|exact Hrest]. rewrite <- Hd.
  unfold detect. rewrite Hf. cbn [mark_overlap mark_kind key_ltb].
  destruct (segments_relation (seg_of s a) (seg_of s b)); try contradiction;
  destruct (binary_key_ltb s (EL b) (EL a)), (binary_key_ltb s (ER (l_right (lft s b))) (ER (l_right (lft s a)))); reflexivity.
Qed.

(** Pieces with at most one common point. *)
Lemma pieces_common : forall p, common (seg_of s a) (seg_of s b) p <->
  has (pc e s a) (pos e p) /\ has (pc e s b) (pos e p)
  /\ ht (pc e s a) (pos e p) = ht (pc e s b) (pos e p) /\ py p = ht (pc e s a) (pos e p).
Proof.
  intro p. unfold common. rewrite (pc_on e s a p La), (pc_on e s b p Lb). intuition congruence.
Qed.
Lemma common_at : forall t, has (pc e s a) t -> has (pc e s b) t -> ht (pc e s a) t = ht (pc e s b) t ->
  common (seg_of s a) (seg_of s b) (at_pos e t (ht (pc e s a) t)).
Proof. intros t H1 H2 H3. apply pieces_common. rewrite pos_at, py_at. repeat split; try assumption; apply H1 || apply H2. Qed.

Lemma detect_touch : forall p, common (seg_of s a) (seg_of s b) p ->
  (forall q, common (seg_of s a) (seg_of s b) q -> q = p) ->
  (segments_relation (seg_of s a) (seg_of s b) = TOUCH \/ segments_relation (seg_of s a) (seg_of s b) = CROSS) ->
  exists s' f, detect Linear a b s = Ok (s', f) /\ wf s' /\ NoDup (queue s') /\ divs s s'
    /\ (detected v a b (abs e s' vo) \/ detected v b a (abs e s' vo)).
Proof.
  intros p Hp Hu Hrel.
  assert (Hi : segments_intersection (seg_of s a) (seg_of s b) = p).
  { apply segments_intersection_unique; [exact (st_proper s vo Hg a Ha)|exact (st_proper s vo Hg b Hb)|exact Hp|exact Hu]. }
  pose proof (proj1 (pieces_common p) Hp) as (Pa & Pb & Pe & Py).
  assert (Ut : forall t, has (pc e s a) t -> has (pc e s b) t -> ht (pc e s a) t = ht (pc e s b) t -> t = pos e p).
  { intros t K1 K2 K3. rewrite <- (Hu _ (common_at t K1 K2 K3)). rewrite pos_at. reflexivity. }
  assert (Hd : detect Linear a b s =
    if negb (pt_eqb (l_start (lft s b)) (l_start (lft s a))) && negb (pt_eqb (end_of s b) (end_of s a))
    then
      let s1 := if negb (pt_eqb p (l_start (lft s a))) && negb (pt_eqb p (end_of s a)) then divide a p s else s in
      let s2 := if negb (pt_eqb p (l_start (lft s b))) && negb (pt_eqb p (end_of s b)) then divide b p s1 else s1 in
      Ok (s2, false)
    else Ok (s, false)).
  { unfold detect. rewrite Hi. destruct Hrel as [-> | ->]; reflexivity. }
  rewrite Hd. clear Hd.
  destruct (st_on_ends e s a p La (proj1 Hp)) as (Sa & Ea). destruct (st_on_ends e s b p Lb (proj2 Hp)) as (Sb & Eb).
  assert (Ia : if negb (pt_eqb p (l_start (lft s a))) && negb (pt_eqb p (end_of s a))
               then inner (pc e s a) (pos e p) else tip (pc e s a) (pos e p)).
  { unfold inner, tip. destruct (pt_eqb_spec p (l_start (lft s a))) as [K|K]; cbn [negb andb]; [left; apply Sa; exact K|].
    destruct (pt_eqb_spec p (end_of s a)) as [K'|K']; cbn [negb]; [right; apply Ea; exact K'|].
    destruct Pa as (J1 & J2). split.
    - destruct (Qcle_lt_or_eq _ _ J1) as [J|J]; [exact J|]. exfalso. apply K. apply Sa. symmetry. exact J.
    - destruct (Qcle_lt_or_eq _ _ J2) as [J|J]; [exact J|]. exfalso. apply K'. apply Ea. exact J. }
  assert (Ib : if negb (pt_eqb p (l_start (lft s b))) && negb (pt_eqb p (end_of s b))
               then inner (pc e s b) (pos e p) else tip (pc e s b) (pos e p)).
  { unfold inner, tip. destruct (pt_eqb_spec p (l_start (lft s b))) as [K|K]; cbn [negb andb]; [left; apply Sb; exact K|].
    destruct (pt_eqb_spec p (end_of s b)) as [K'|K']; cbn [negb]; [right; apply Eb; exact K'|].
    destruct Pb as (J1 & J2). split.
    - destruct (Qcle_lt_or_eq _ _ J1) as [J|J]; [exact J|]. exfalso. apply K. apply Sb. symmetry. exact J.
    - destruct (Qcle_lt_or_eq _ _ J2) as [J|J]; [exact J|]. exfalso. apply K'. apply Eb. exact J. }
  assert (Tn : forall x t, lo (pc e s x) < hi (pc e s x) -> tip (pc e s x) t -> ~ inner (pc e s x) t).
  { intros x t L [-> | ->] (K1 & K2); qlra. }
  destruct (pt_eqb_spec (l_start (lft s b)) (l_start (lft s a))) as [E|E]; cbn [negb andb].
  { exists s, false. split; [reflexivity|]. split; [exact Hw|]. split; [exact Hq|]. split; [apply divs_refl|].
    left. apply D_none. intros t K1 K2 K3. pose proof (Ut t K1 K2 K3) as ->. cbn [abs vp] in *.
    assert (Ep : l_start (lft s b) = p).
    { apply Hu. split; [rewrite E; exact (on_segment_start (seg_of s a))|exact (on_segment_start (seg_of s b))]. }
    split; left; [rewrite <- Ep, E|rewrite <- Ep]; reflexivity. }
  destruct (pt_eqb_spec (end_of s b) (end_of s a)) as [F|F]; cbn [negb andb].
  { exists s, false. split; [reflexivity|]. split; [exact Hw|]. split; [exact Hq|]. split; [apply divs_refl|].
    left. apply D_none. intros t K1 K2 K3. pose proof (Ut t K1 K2 K3) as ->. cbn [abs vp] in *.
    assert (Ep : end_of s b = p).
    { apply Hu. split; [rewrite F; exact (on_segment_end (seg_of s a))|exact (on_segment_end (seg_of s b))]. }
    split; right; [rewrite <- Ep, F|rewrite <- Ep]; reflexivity. }
  cbn zeta.
  destruct (coll_dec (pc e s a) (pc e s b)) as [Hc|Hc].
  { (* collinear pieces touching at their ends *)
    assert (Ta : tip (pc e s a) (pos e p) /\ tip (pc e s b) (pos e p)).
    { destruct Pa as (A1 & A2), Pb as (B1 & B2).
      assert (Hall : forall t, has (pc e s a) t -> has (pc e s b) t -> t = pos e p).
      { intros t K1 K2. apply (Ut t K1 K2). apply coll_ht. exact Hc. }
      assert (M1 : Qc_max (lo (pc e s a)) (lo (pc e s b)) = pos e p).
      { apply Hall; split; try (apply max_le; qlra); [apply max_l|apply max_r]. }
      assert (M2 : Qc_min (hi (pc e s a)) (hi (pc e s b)) = pos e p).
      { apply Hall; split.
        - destruct (Qc_min_cases (hi (pc e s a)) (hi (pc e s b))) as [(-> & _)|(-> & _)]; qlra.
        - apply Qc_min_le_l.
        - destruct (Qc_min_cases (hi (pc e s a)) (hi (pc e s b))) as [(-> & _)|(-> & _)]; qlra.
        - apply Qc_min_le_r. }
      destruct (Qc_max_cases (lo (pc e s a)) (lo (pc e s b))) as [(X & X')|(X & X')];
      destruct (Qc_min_cases (hi (pc e s a)) (hi (pc e s b))) as [(Y & Y')|(Y & Y')]; rewrite X in M1; rewrite Y in M2.
      - exfalso. pose proof La. rewrite M1, M2 in H. qlra.
      - split; [left; symmetry; exact M1|right; symmetry; exact M2].
      - split; [right; symmetry; exact M2|left; symmetry; exact M1].
      - exfalso. pose proof Lb. rewrite M1, M2 in H. qlra. }
    destruct Ta as (Ta & Tb).
    destruct (negb (pt_eqb p (l_start (lft s a))) && negb (pt_eqb p (end_of s a))); [exfalso; exact (Tn a _ La Ta Ia)|].
    destruct (negb (pt_eqb p (l_start (lft s b))) && negb (pt_eqb p (end_of s b))); [exfalso; exact (Tn b _ Lb Tb Ib)|].
    exists s, false. split; [reflexivity|]. split; [exact Hw|]. split; [exact Hq|]. split; [apply divs_refl|].
    left. apply D_none. intros t K1 K2 K3. pose proof (Ut t K1 K2 K3) as ->. split; assumption. }
  destruct (negb (pt_eqb p (l_start (lft s a))) && negb (pt_eqb p (end_of s a))).
  - destruct (st_cut e s vo a p Hw Hq Ha La Ra Ia Py) as (C & W & N & D).
    assert (Pcb : pc e (divide a p s) b = pc e s b) by (apply pc_divide_other; first [assumption|congruence]).
    destruct (negb (pt_eqb p (l_start (lft s b))) && negb (pt_eqb p (end_of s b))).
    + destruct (st_cut e (divide a p s) vo b p W N) as (C2 & W2 & N2 & D2).
      * rewrite (div_lefts s a _ Ha). lia.
      * rewrite Pcb. exact Lb.
      * apply div_pending_other; first [assumption|congruence].
      * rewrite Pcb. exact Ib.
      * rewrite Pcb. congruence.
      * eexists _, false. split; [reflexivity|]. split; [exact W2|]. split; [exact N2|]. split; [exact (divs_trans _ _ _ D D2)|].
        left. apply (D_point v a b (pos e p) _ _ Hc Pa Pb Pe (or_introl (conj Ia C))). left. split; [exact Ib|exact C2].
    + eexists _, false. split; [reflexivity|]. split; [exact W|]. split; [exact N|]. split; [exact D|].
      left. apply (D_point v a b (pos e p) _ _ Hc Pa Pb Pe (or_introl (conj Ia C))). right. split; [exact (Tn b _ Lb Ib)|reflexivity].
  - destruct (negb (pt_eqb p (l_start (lft s b))) && negb (pt_eqb p (end_of s b))).
    + assert (Pyb : py p = ht (pc e s b) (pos e p)) by congruence.
      destruct (st_cut e s vo b p Hw Hq Hb Lb Rb Ib Pyb) as (C & W & N & D).
      eexists _, false. split; [reflexivity|]. split; [exact W|]. split; [exact N|]. split; [exact D|].
      left. apply (D_point v a b (pos e p) v _ Hc Pa Pb Pe); [right; split; [exact (Tn a _ La Ia)|reflexivity]|left; split; [exact Ib|exact C]].
    + eexists _, false. split; [reflexivity|]. split; [exact Hw|]. split; [exact Hq|]. split; [apply divs_refl|].
      left. apply (D_point v a b (pos e p) v _ Hc Pa Pb Pe); [right; split; [exact (Tn a _ La Ia)|reflexivity]|right; split; [exact (Tn b _ Lb Ib)|reflexivity]].
Qed.

Lemma detect_link : exists s' f, detect Linear a b s = Ok (s', f) /\ wf s' /\ NoDup (queue s') /\ divs s s'
    /\ (detected v a b (abs e s' vo) \/ detected v b a (abs e s' vo)).
Proof.
  pose proof (st_plt s vo Hg a Ha) as Ta. pose proof (st_plt s vo Hg b Hb) as Tb.
  destruct (norm_id _ _ Ta) as (A1 & A2). destruct (norm_id _ _ Tb) as (B1 & B2).
  pose proof (segments_relation_spec (seg_of s a) (seg_of s b) (st_proper s vo Hg a Ha) (st_proper s vo Hg b Hb)) as R.
  pose proof La as La'. pose proof Lb as Lb'.
  assert (LT : forall x y, In x P -> In y P -> plt x y -> pos e x < pos e y) by (intros x y Hx Hy; apply (sheared_lt e P Hsh); assumption).
  assert (LE : forall x y, In x P -> In y P -> ple x y -> pos e x <= pos e y) by (intros x y Hx Hy; apply (sheared_le e P Hsh); assumption).
  pose proof (st_start s vo Hg a Ha) as PA. pose proof (st_end s vo Hg a Ha) as PB.
  pose proof (st_start s vo Hg b Hb) as PC. pose proof (st_end s vo Hg b Hb) as PD.
  unfold seg_of in R. fold (seg_of s a) in R. fold (seg_of s b) in R.
  destruct (segments_relation (seg_of s a) (seg_of s b)) eqn:Er; inversion R; subst.
  - exists s, false. split; [unfold detect; rewrite Er; reflexivity|]. split; [exact Hw|]. split; [exact Hq|]. split; [apply divs_refl|].
    left. apply D_none. intros t K1 K2 K3. exfalso. exact (H _ (common_at t K1 K2 K3)).
  - apply (detect_touch p H H0). left. exact Er.
  - apply (detect_touch p H H0). right. exact Er.
  - pose proof (collinear_coll a b Ha Hb H) as Hc. unfold seg_of in H0. rewrite A1, A2, B1, B2 in H0.
    apply detect_overlap; [exact Hc| | |rewrite Er; exact I].
    + destruct H0 as [(J1 & J2 & J3)|(J1 & J2 & J3)]; apply LT in J1, J2, J3; try assumption; cbn in *; qlra.
    + destruct H0 as [(J1 & J2 & J3)|(J1 & J2 & J3)]; apply LT in J1, J2, J3; try assumption; cbn in *; qlra.
  - pose proof (collinear_coll a b Ha Hb H) as Hc. unfold seg_of in H0, H1. rewrite A1, B1 in H0. rewrite A2, B2 in H1.
    apply LE in H0, H1; try assumption.
    apply detect_overlap; [exact Hc| | |rewrite Er; exact I]; cbn in *; qlra.
  - unfold seg_of in H, H0. rewrite A1, B1 in H. rewrite A2, B2 in H0.
    assert (Hc : coll (pc e s a) (pc e s b)) by (unfold coll, pc; cbn; rewrite H, H0; split; reflexivity).
    apply (f_equal (pos e)) in H, H0.
    apply detect_overlap; [exact Hc| | |rewrite Er; exact I]; cbn in *; qlra.
  - pose proof (collinear_coll a b Ha Hb H) as Hc. unfold seg_of in H0, H1. rewrite A1, B1 in H0. rewrite A2, B2 in H1.
    apply LE in H0, H1; try assumption.
    apply detect_overlap; [exact Hc| | |rewrite Er; exact I]; cbn in *; qlra.
Qed.
End Pair.
End Detect.
End Frame.
