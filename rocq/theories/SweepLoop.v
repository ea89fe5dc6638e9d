(** The sweep loop: what is kept over iterations, termination, and what is
    reached at the end.  Proof support only, no part of /repo is modelled here. *)
From Coq Require Import Permutation Sorted.
From Verif Require Import QcTac Geom Spec GeomFacts Relation PairFacts SweepGeo SweepInv SweepSteps Sweep SweepCmp SweepLink Linear SweepRun.

(** ** Splitting a segment *)
Lemma on_segment_split : forall a b c p, on_segment c (Seg a b) ->
  (on_segment p (Seg a b) <-> on_segment p (Seg a c) \/ on_segment p (Seg c b)).
Proof.
  intros a b c p (u & U0 & U1 & Ux & Uy). cbn [s_start s_end] in *. unfold on_segment. cbn [s_start s_end]. split.
  - intros (t & T0 & T1 & Tx & Ty). destruct (Qclt_le_dec u t) as [H|H].
    + right. assert (Hn : 1 - u <> 0) by (intro K; qlra). exists ((t - u) / (1 - u)).
      assert (Hk : (1 - u) * ((t - u) / (1 - u)) = t - u) by (field; exact Hn).
      set (k := (t - u) / (1 - u)) in *. clearbody k. assert (Hu : 0 < 1 - u) by qlra.
      split; [destruct (Qclt_le_dec k 0); [exfalso; qnra|assumption]|].
      split; [destruct (Qclt_le_dec 1 k); [exfalso; qnra|assumption]|].
      split.
      * rewrite Tx, Ux. assert (E : t = u + (1 - u) * k) by (rewrite Hk; qring). rewrite E. qring.
      * rewrite Ty, Uy. assert (E : t = u + (1 - u) * k) by (rewrite Hk; qring). rewrite E. qring.
    + left. destruct (Qc_eq_dec u 0) as [Hz|Hn].
      * exists 0. assert (t = 0) by qlra. subst t u. rewrite Tx, Ty. repeat split; try qlra.
      * exists (t / u). assert (Hk : u * (t / u) = t) by (field; exact Hn).
        set (k := t / u) in *. clearbody k. assert (Hu : 0 < u) by (destruct (Qcle_lt_or_eq _ _ U0); [assumption|congruence]).
        split; [destruct (Qclt_le_dec k 0); [exfalso; qnra|assumption]|].
        split; [destruct (Qclt_le_dec 1 k); [exfalso; qnra|assumption]|].
        split; [rewrite Tx, Ux, <- Hk; qring|rewrite Ty, Uy, <- Hk; qring].
  - intros [(t & T0 & T1 & Tx & Ty)|(t & T0 & T1 & Tx & Ty)].
    + exists (t * u). split; [qnra|]. split; [qnra|]. rewrite Tx, Ty, Ux, Uy. split; qring.
    + exists (u + t * (1 - u)). split; [qnra|]. split; [qnra|]. rewrite Tx, Ty, Ux, Uy. split; qring.
Qed.

(** ** What divisions keep *)
Lemma divs_wf : forall s s', divs s s' -> wf s -> wf s'.
Proof. intros s s' H. induction H as [|s i p s' H1 H2 H3 H4 IH]; intro Hw; [exact Hw|]. apply IH. exact (div_wf s i p Hw H1). Qed.
Lemma div_range : forall s i p ev, (i < length (lefts s))%nat -> wf s -> in_range s ev -> in_range (divide i p s) ev.
Proof.
  intros s i p [j|r] Hi Hw H; cbn in *.
  - rewrite app_length, update_length. cbn. lia.
  - rewrite app_length, update_length. cbn. lia.
Qed.
Lemma divs_range : forall s s', divs s s' -> wf s -> forall ev, in_range s ev -> in_range s' ev.
Proof.
  intros s s' H. induction H as [|s i p s' H1 H2 H3 H4 IH]; intros Hw ev Hev; [exact Hev|].
  apply IH; [exact (div_wf s i p Hw H1)|]. exact (div_range s i p ev H1 Hw Hev).
Qed.
Lemma div_ev_start : forall s i p ev, (i < length (lefts s))%nat -> wf s -> in_range s ev ->
  ev_start (divide i p s) ev = ev_start s ev.
Proof.
  intros s i p [j|r] Hi Hw H; cbn in H.
  - cbn [ev_start]. destruct (Nat.eq_dec j i) as [->|K]; [rewrite (div_lft_i s i p Hw Hi); reflexivity|].
    rewrite (div_lft_other s i p j H K). reflexivity.
  - cbn [ev_start]. apply (div_rgt_start s i p Hw Hi). rewrite <- (w_len s Hw). exact H.
Qed.
Lemma divs_ev_start : forall s s', divs s s' -> wf s -> forall ev, in_range s ev -> ev_start s' ev = ev_start s ev.
Proof.
  intros s s' H. induction H as [|s i p s' H1 H2 H3 H4 IH]; intros Hw ev Hev; [reflexivity|].
  rewrite IH; [|exact (div_wf s i p Hw H1)|exact (div_range s i p ev H1 Hw Hev)].
  exact (div_ev_start s i p ev H1 Hw Hev).
Qed.
(** Old events stay in the queue or out of it, new ones are in it. *)
Lemma divs_queue : forall s s', divs s s' -> wf s -> forall ev,
  (in_range s ev -> (In ev (queue s') <-> In ev (queue s))) /\ (in_range s' ev -> ~ in_range s ev -> In ev (queue s')).
Proof.
  intros s s' H. induction H as [|s i p s' H1 H2 H3 H4 IH]; intros Hw ev; [tauto|].
  destruct (IH (div_wf s i p Hw H1) ev) as (K1 & K2). split.
  - intro Hev. rewrite (K1 (div_range s i p ev H1 Hw Hev)). cbn. split; [|tauto].
    intros [<-|[<-|J]]; [| |exact J]; exfalso; cbn in Hev; lia.
  - intros J1 J2.
    assert (D : in_range (divide i p s) ev \/ ~ in_range (divide i p s) ev).
    { destruct ev; cbn; match goal with |- (?a < ?b)%nat \/ _ => destruct (Nat.lt_decidable a b); tauto end. }
    destruct D as [D|D]; [|exact (K2 J1 D)]. apply (K1 D). cbn. destruct ev as [j|r]; cbn in D, J2.
    + right. left. f_equal. rewrite app_length, update_length in D. cbn in D. lia.
    + left. f_equal. rewrite app_length, update_length in D. cbn in D. lia.
Qed.
Lemma divs_left_of : forall s s', divs s s' -> wf s -> forall ev, in_range s ev -> ~ In ev (queue s) ->
  left_of s' ev = left_of s ev.
Proof.
  intros s s' H. induction H as [|s i p s' H1 H2 H3 H4 IH]; intros Hw ev Hev Hnq; [reflexivity|].
  pose proof (div_wf s i p Hw H1) as Hw1.
  rewrite IH; [|exact Hw1|exact (div_range s i p ev H1 Hw Hev)|].
  - destruct ev as [j|r]; [reflexivity|]. cbn [left_of]. rewrite (div_rgt_other s i p Hw r); [reflexivity| |].
    + rewrite <- (w_len s Hw). exact Hev.
    + intros ->. exact (Hnq H2).
  - intro K. apply Hnq.
    apply (proj1 (divs_queue s (divide i p s) (divs_one s i p H1 H2 H3) Hw ev)); assumption.
Qed.

Definition within (a b : segment) : Prop := forall p, on_segment p a -> on_segment p b.
(** Pieces come from source pieces of the same operand and orientation, and
    those from a source piece cover it. *)
Definition sources (s0 s : state) (src : nat -> nat) : Prop :=
  (forall i, (i < length (lefts s))%nat -> (src i < length (lefts s0))%nat
     /\ l_first (lft s i) = l_first (lft s0 (src i)) /\ l_interior (lft s i) = l_interior (lft s0 (src i))
     /\ within (seg_of s i) (seg_of s0 (src i)))
  /\ (forall k p, (k < length (lefts s0))%nat -> on_segment p (seg_of s0 k) ->
       exists i, (i < length (lefts s))%nat /\ src i = k /\ on_segment p (seg_of s i)).
Definition sourced (s0 s : state) : Prop := exists src, sources s0 s src.

Section Divided.
Variables (s : state) (i : nat) (p : point).
Hypothesis Hw : wf s.
Hypothesis Hi : (i < length (lefts s))%nat.
Hypothesis Hp : on_segment p (seg_of s i).
Notation s' := (divide i p s).

Lemma div_seg_i : seg_of s' i = Seg (l_start (lft s i)) p.
Proof. unfold seg_of. rewrite (div_end_i s i p Hw Hi), (div_lft_i s i p Hw Hi). reflexivity. Qed.
Lemma div_seg_tail : seg_of s' (length (lefts s)) = Seg p (end_of s i).
Proof. unfold seg_of. rewrite (div_end_tail s i p Hw Hi), (div_lft_tail s i p Hi). reflexivity. Qed.
Lemma div_seg_other : forall j, (j < length (lefts s))%nat -> j <> i -> seg_of s' j = seg_of s j.
Proof. intros j Hj Hn. unfold seg_of. rewrite (div_end_other s i p Hw Hi j Hj Hn), (div_lft_other s i p j Hj Hn). reflexivity. Qed.

Lemma div_sourced : sourced s s'.
Proof.
  pose proof (fun q => on_segment_split _ _ p q Hp) as Hs. fold (seg_of s i) in Hs.
  exists (fun j => if Nat.eqb j (length (lefts s)) then i else j). split.
  - intros j Hj. rewrite (div_lefts s i p Hi) in Hj. destruct (Nat.eqb_spec j (length (lefts s))) as [->|Hn].
    + split; [exact Hi|]. rewrite (div_lft_tail s i p Hi), div_seg_tail. split; [reflexivity|]. split; [reflexivity|].
      intros q Hq. apply Hs. right. exact Hq.
    + destruct (Nat.eq_dec j i) as [->|Hni].
      * split; [exact Hi|]. rewrite (div_lft_i s i p Hw Hi), div_seg_i. split; [reflexivity|]. split; [reflexivity|].
        intros q Hq. apply Hs. left. exact Hq.
      * assert (Hj' : (j < length (lefts s))%nat) by lia. split; [exact Hj'|].
        rewrite (div_lft_other s i p j Hj' Hni), (div_seg_other j Hj' Hni).
        split; [reflexivity|]. split; [reflexivity|]. intros q Hq. exact Hq.
  - intros k q Hk Hq. rewrite (div_lefts s i p Hi). destruct (Nat.eq_dec k i) as [->|Hni].
    + apply Hs in Hq. destruct Hq as [Hq|Hq].
      * exists i. split; [lia|]. rewrite div_seg_i. split; [|exact Hq]. destruct (Nat.eqb_spec i (length (lefts s))); [lia|reflexivity].
      * exists (length (lefts s)). split; [lia|]. rewrite div_seg_tail. split; [|exact Hq]. rewrite Nat.eqb_refl. reflexivity.
    + exists k. split; [lia|]. rewrite (div_seg_other k Hk Hni). split; [|exact Hq].
      destruct (Nat.eqb_spec k (length (lefts s))); [lia|reflexivity].
Qed.
End Divided.

Lemma sourced_refl : forall s, sourced s s.
Proof.
  intros s. exists (fun i => i). split.
  - intros i Hi. split; [exact Hi|]. split; [reflexivity|]. split; [reflexivity|]. intros q Hq. exact Hq.
  - intros k q Hk Hq. exists k. split; [exact Hk|]. split; [reflexivity|exact Hq].
Qed.
Lemma sourced_trans : forall s1 s2 s3, sourced s1 s2 -> sourced s2 s3 -> sourced s1 s3.
Proof.
  intros s1 s2 s3 (f & F1 & F2) (g & G1 & G2). exists (fun i => f (g i)). split.
  - intros i Hi. destruct (G1 i Hi) as (Hj & J1 & J2 & J3). destruct (F1 (g i) Hj) as (Hk & H1 & H2 & H3).
    split; [exact Hk|]. split; [congruence|]. split; [congruence|]. intros q Hq. apply H3, J3, Hq.
  - intros k q Hk Hq. destruct (F2 k q Hk Hq) as (j & Hj & Ej & Hqj). destruct (G2 j q Hj Hqj) as (i & Hi & Ei & Hqi).
    exists i. split; [exact Hi|]. split; [congruence|exact Hqi].
Qed.
Lemma divs_sourced : forall s s', divs s s' -> wf s -> sourced s s'.
Proof.
  intros s s' H. induction H as [|s i p s' H1 H2 H3 H4 IH]; intros Hw; [apply sourced_refl|].
  apply (sourced_trans _ (divide i p s)); [exact (div_sourced s i p Hw H1 (proj1 H3))|]. exact (IH (div_wf s i p Hw H1)).
Qed.

(** ** Termination measure *)
Definition innerb (x : piece) (t : Qc) : bool := Qc_ltb (lo x) t && Qc_ltb t (hi x).
Lemma innerb_spec : forall x t, innerb x t = true <-> inner x t.
Proof.
  intros x t. unfold innerb, inner. destruct (Qc_ltb_spec (lo x) t), (Qc_ltb_spec t (hi x)); cbn; split; intuition discriminate.
Qed.
Definition inners (Ts : list Qc) (x : piece) : nat := length (filter (innerb x) Ts).
Definition measure (Ts : list Qc) (v : view) : nat :=
  (length (vq v) + 3 * list_sum (map (fun i => inners Ts (vp v i)) (seq 0 (vn v))))%nat.

Lemma count_split : forall (f g h : Qc -> bool) l,
  (forall t, f t = true -> h t = true) -> (forall t, g t = true -> h t = true) -> (forall t, f t = true -> g t = true -> False) ->
  (length (filter f l) + length (filter g l) <= length (filter h l))%nat
  /\ (forall q, In q l -> h q = true -> f q = false -> g q = false ->
      (length (filter f l) + length (filter g l) + 1 <= length (filter h l))%nat).
Proof.
  intros f g h l Hf Hg Hfg. induction l as [|t l (IH1 & IH2)]; [cbn; split; [lia|intros q []]|]. cbn [filter]. split.
  - destruct (f t) eqn:Ef, (g t) eqn:Eg; cbn [length].
    + exfalso. exact (Hfg t Ef Eg).
    + rewrite (Hf t Ef). cbn [length]. lia.
    + rewrite (Hg t Eg). cbn [length]. lia.
    + destruct (h t); cbn [length]; lia.
  - intros q [<-|Hq] H1 H2 H3.
    + rewrite H1, H2, H3. cbn [length]. lia.
    + specialize (IH2 q Hq H1 H2 H3). destruct (f t) eqn:Ef, (g t) eqn:Eg; cbn [length].
      * exfalso. exact (Hfg t Ef Eg).
      * rewrite (Hf t Ef). cbn [length]. lia.
      * rewrite (Hg t Eg). cbn [length]. lia.
      * destruct (h t); cbn [length]; lia.
Qed.
Lemma sum_change : forall (f g : nat -> nat) x l, NoDup l -> In x l -> (forall i, In i l -> i <> x -> f i = g i) ->
  (list_sum (map f l) + g x = list_sum (map g l) + f x)%nat.
Proof.
  intros f g x l Hn Hx Hfg. apply in_split in Hx. destruct Hx as (l1 & l2 & ->).
  assert (H : forall i, In i (l1 ++ l2) -> f i = g i).
  { intros i Hi. apply Hfg; [rewrite in_app_iff in *; cbn; tauto|]. intros ->. exact (NoDup_remove_2 _ _ _ Hn Hi). }
  rewrite !map_app, !list_sum_app. cbn.
  rewrite (map_ext_in f g l1), (map_ext_in f g l2); [lia| |]; intros i Hi; apply H; apply in_or_app; tauto.
Qed.
Lemma cut_measure : forall V Ts T v x q v', base V Ts T v -> cutok V Ts T v x q -> cut v x q v' ->
  (measure Ts v' < measure Ts v)%nat.
Proof.
  intros V Ts T v x q v' Hb Hok Hc. pose proof (b_q V Ts T v Hb) as Hq. pose proof Hok as (Ax & (I1 & I2) & _ & Iq & _).
  pose proof (active_lt v x Hq Ax) as Lx.
  unfold measure. rewrite (c_n _ _ _ _ Hc), (Permutation_length (c_q _ _ _ _ Hc)). cbn [length].
  rewrite seq_S, map_app, list_sum_app. cbn [map list_sum fold_right Nat.add]. rewrite (c_tail _ _ _ _ Hc).
  pose proof (sum_change (fun i => inners Ts (vp v' i)) (fun i => inners Ts (vp v i)) x (seq 0 (vn v))) as Hs. cbn beta in Hs.
  rewrite (c_head _ _ _ _ Hc) in Hs.
  assert (Hs' := Hs (seq_NoDup _ _)). clear Hs.
  assert (Hin : In x (seq 0 (vn v))) by (apply in_seq; lia). specialize (Hs' Hin).
  assert (Hs : (list_sum (map (fun i => inners Ts (vp v' i)) (seq 0 (vn v))) + inners Ts (vp v x)
              = list_sum (map (fun i => inners Ts (vp v i)) (seq 0 (vn v))) + inners Ts (set_hi (vp v x) q))%nat).
  { apply Hs'. intros i Hi Hn. apply in_seq in Hi. rewrite (c_same _ _ _ _ Hc i) by (lia || assumption). reflexivity. }
  assert (Hcount : (inners Ts (set_hi (vp v x) q) + inners Ts (set_lo (vp v x) q) + 1 <= inners Ts (vp v x))%nat).
  { apply (count_split (innerb (set_hi (vp v x) q)) (innerb (set_lo (vp v x) q)) (innerb (vp v x)) Ts) with (q := q).
    - intros t Ht. apply innerb_spec in Ht. apply innerb_spec. destruct Ht as (H1 & H2). cbn in *. split; qlra.
    - intros t Ht. apply innerb_spec in Ht. apply innerb_spec. destruct Ht as (H1 & H2). cbn in *. split; qlra.
    - intros t Ht Ht'. apply innerb_spec in Ht. apply innerb_spec in Ht'. destruct Ht as (H1 & H2), Ht' as (H3 & H4). cbn in *. qlra.
    - exact Iq.
    - apply innerb_spec. split; assumption.
    - destruct (innerb (set_hi (vp v x) q) q) eqn:E; [|reflexivity]. apply innerb_spec in E. destruct E as (H1 & H2). cbn in *. qlra.
    - destruct (innerb (set_lo (vp v x) q) q) eqn:E; [|reflexivity]. apply innerb_spec in E. destruct E as (H1 & H2). cbn in *. qlra. }
  lia.
Qed.
Lemma cuts_measure : forall V Ts T X v v', cuts V Ts T X v v' -> base V Ts T v -> (measure Ts v' <= measure Ts v)%nat.
Proof.
  intros V Ts T X v v' H. induction H as [|v x q v1 v2 Hx Hok Hc H IH]; intro Hb; [lia|].
  pose proof (cut_measure _ _ _ _ _ _ _ Hb Hok Hc). specialize (IH (cut_base V Ts T v v1 x q Hb Hc Hok)). lia.
Qed.

(** ** History *)
Lemma NoDup_app_snoc : forall (A : Type) (l : list A) x, NoDup l -> ~ In x l -> NoDup (l ++ [x]).
Proof.
  intros A l x H Hx. apply (Permutation_NoDup (Permutation_cons_append l x)). constructor; assumption.
Qed.
(** Pieces whose right events are among the processed ones, latest first. *)
Definition finished (s : state) (pl : list event) : list nat :=
  rev (map (left_of s) (filter (fun ev => negb (is_left ev)) pl)).
Definition finished_by (s : state) (ev : event) : list nat :=
  match ev with EL _ => [] | ER r => [r_left (rgt s r)] end.

Section Frame.
Variables (e : Qc) (P : list point).
Hypothesis Hsh : Sheared e P.
Notation V := (V e P).
Notation Ts := (Ts e P).
Notation abs := (abs e).
Notation pc := (pc e).
Notation inv := (inv e P).
Variable s0 : state.

Record good (T : Qc) (s : state) (pl : list event) : Prop := {
  k_inv : inv T s (finished s pl);
  k_pl : forall ev, In ev pl <-> in_range s ev /\ ~ In ev (queue s);
  k_nodup : NoDup pl;
  k_time : forall ev, In ev pl -> pos e (ev_start s ev) <= T;
  k_sorted : StronglySorted (fun a b => pos e (ev_start s a) <= pos e (ev_start s b)) pl;
  k_src : sourced s0 s
}.

Lemma good_finished : forall T s pl ev s1 s', good T s pl -> In ev (queue s) -> wf s1 ->
  lefts s1 = lefts s -> rights s1 = rights s -> queue s1 = queue (unqueue ev s) -> divs s1 s' ->
  finished s' (pl ++ [ev]) = finished_by s ev ++ finished s pl
  /\ (forall ev', In ev' (pl ++ [ev]) -> left_of s' ev' = left_of s ev').
Proof.
  intros T s pl ev s1 s' Hk Hin Hw1 El Er Eq Hd.
  pose proof (i_wf _ _ _ _ _ (k_inv _ _ _ Hk)) as Hw.
  assert (Hr : forall ev', in_range s1 ev' <-> in_range s ev') by (intros [j|r]; cbn; rewrite ?El, ?Er; tauto).
  assert (H : forall ev', In ev' (pl ++ [ev]) -> left_of s' ev' = left_of s ev').
  { intros ev' H. assert (K : in_range s ev' /\ ~ In ev' (queue s1)).
    { rewrite Eq, unqueue_in. rewrite in_app_iff in H. cbn in H. destruct H as [H|[<-|[]]].
      - apply (k_pl _ _ _ Hk) in H. tauto.
      - split; [exact (w_q s Hw ev Hin)|tauto]. }
    rewrite (divs_left_of s1 s' Hd Hw1 ev'); [|apply Hr; tauto|tauto].
    destruct ev'; cbn [left_of]; unfold rgt; rewrite ?Er; reflexivity. }
  split; [|exact H].
  unfold finished. rewrite filter_app, map_app, rev_app_distr.
  assert (E1 : map (left_of s') (filter (fun ev => negb (is_left ev)) pl) = map (left_of s) (filter (fun ev => negb (is_left ev)) pl)).
  { apply map_ext_in. intros ev' H'. apply filter_In in H'. apply H. apply in_or_app. left. apply H'. }
  rewrite E1. f_equal. destruct ev as [j|r]; [reflexivity|]. cbn. f_equal.
  apply (H (ER r)). apply in_or_app. right. left. reflexivity.
Qed.
Lemma good_next : forall T T' s pl ev s1 s', good T s pl -> In ev (queue s) -> wf s1 ->
  lefts s1 = lefts s -> rights s1 = rights s -> queue s1 = queue (unqueue ev s) -> divs s1 s' ->
  T <= T' -> pos e (ev_start s ev) = T' -> inv T' s' (finished_by s ev ++ finished s pl) ->
  good T' s' (pl ++ [ev]).
Proof.
  intros T T' s pl ev s1 s' Hk Hin Hw1 El Er Eq Hd HT Hev Hi.
  pose proof (i_wf _ _ _ _ _ (k_inv _ _ _ Hk)) as Hw.
  assert (Hr : forall ev', in_range s1 ev' <-> in_range s ev') by (intros [j|r]; cbn; rewrite ?El, ?Er; tauto).
  assert (Hst : forall ev', ev_start s1 ev' = ev_start s ev') by (intros [j|r]; cbn; unfold lft, rgt; rewrite ?El, ?Er; reflexivity).
  destruct (good_finished T s pl ev s1 s' Hk Hin Hw1 El Er Eq Hd) as (Hf & _).
  assert (Hpl : forall ev', In ev' (pl ++ [ev]) <-> in_range s ev' /\ ~ In ev' (queue s1)).
  { intro ev'. rewrite Eq, unqueue_in, in_app_iff, (k_pl _ _ _ Hk). cbn. split.
    - intros [(H1 & H2)|[<-|[]]]; [tauto|]. split; [exact (w_q s Hw ev Hin)|tauto].
    - intros (H1 & H2). destruct (event_eqb_spec ev ev') as [K|K]; [tauto|]. left. split; [exact H1|].
      intro J. apply H2. split; [exact J|congruence]. }
  constructor.
  - rewrite Hf. exact Hi.
  - intro ev'. rewrite Hpl. destruct (divs_queue s1 s' Hd Hw1 ev') as (K1 & K2). split.
    + intros (H1 & H2). split; [apply (divs_range s1 s' Hd Hw1); apply Hr; exact H1|]. rewrite K1; [exact H2|apply Hr; exact H1].
    + intros (H1 & H2).
      assert (D : in_range s ev').
      { apply Hr. destruct ev'; cbn in *; match goal with |- (?a < ?b)%nat => destruct (Nat.lt_decidable a b); [assumption|] end;
          exfalso; apply H2; apply K2; assumption. }
      split; [exact D|]. rewrite <- K1; [exact H2|apply Hr; exact D].
  - apply NoDup_app_snoc; [exact (k_nodup _ _ _ Hk)|]. intro K. apply (k_pl _ _ _ Hk) in K. tauto.
  - intros ev' H. assert (R : in_range s ev') by (apply Hpl; exact H).
    rewrite (divs_ev_start s1 s' Hd Hw1 ev' (proj2 (Hr ev') R)), Hst.
    rewrite in_app_iff in H. destruct H as [H|[<-|[]]]; [|rewrite Hev; apply Qcle_refl]. pose proof (k_time _ _ _ Hk ev' H). qlra.
  - assert (Es : forall ev', In ev' (pl ++ [ev]) -> ev_start s' ev' = ev_start s ev').
    { intros ev' H. assert (R : in_range s ev') by (apply Hpl; exact H). rewrite (divs_ev_start s1 s' Hd Hw1 ev' (proj2 (Hr ev') R)). apply Hst. }
    pose proof (k_sorted _ _ _ Hk) as So. pose proof (k_time _ _ _ Hk) as Ti. clear - Es So Ti HT Hev. induction So as [|x pl So IH F]; cbn [app].
    + constructor; [constructor|constructor].
    + constructor.
      * apply IH; [intros ev' H; apply Es; right; exact H|intros ev' H; apply Ti; right; exact H].
      * apply Forall_forall. intros y Hy. rewrite (Es x (or_introl eq_refl)), (Es y (or_intror Hy)). apply in_app_iff in Hy. destruct Hy as [Hy|[<-|[]]].
        -- rewrite Forall_forall in F. exact (F y Hy).
        -- pose proof (Ti x (or_introl eq_refl)) as K. rewrite Hev. exact (Qcle_trans _ _ _ K HT).
  - apply (sourced_trans _ s1); [|exact (divs_sourced s1 s' Hd Hw1)].
    pose proof (k_src _ _ _ Hk) as Hs. unfold sourced, sources, seg_of, end_of, lft, rgt in *. rewrite El, Er. exact Hs.
Qed.

Lemma good_starts : forall T s pl ev s1 s', good T s pl -> In ev (queue s) -> wf s1 ->
  lefts s1 = lefts s -> rights s1 = rights s -> divs s1 s' ->
  forall ev', In ev' (pl ++ [ev]) -> ev_start s' ev' = ev_start s ev'.
Proof.
  intros T s pl ev s1 s' Hk Hin Hw1 El Er Hd ev' H.
  pose proof (i_wf _ _ _ _ _ (k_inv _ _ _ Hk)) as Hw.
  assert (R : in_range s ev').
  { rewrite in_app_iff in H. destruct H as [H|[<-|[]]]; [apply (k_pl _ _ _ Hk); exact H|exact (w_q s Hw ev Hin)]. }
  rewrite (divs_ev_start s1 s' Hd Hw1 ev').
  - destruct ev'; cbn; unfold lft, rgt; rewrite ?El, ?Er; reflexivity.
  - destruct ev'; cbn in *; rewrite ?El, ?Er; exact R.
Qed.
Lemma measure_unqueue : forall s vo vo' ev l, NoDup (queue s) -> In ev (queue s) ->
  (S (measure Ts (abs (with_line (unqueue ev s) l) vo')) = measure Ts (abs s vo))%nat.
Proof.
  intros s vo vo' ev l Hn Hin. unfold measure. rewrite (Permutation_length (unqueue_view e s vo ev Hn Hin)).
  cbn [length SweepLink.abs vn vp vq with_line lefts queue line unqueue]. rewrite !map_length. reflexivity.
Qed.

(** What is done in an iteration with a left and with a right event. *)
Definition stepped_left (T : Qc) (s : state) (vo : list nat) (i : nat) (s' : state) : Prop :=
  exists l1 l2 s1 s2, line s = l1 ++ l2 /\ s1 = with_line (unqueue (EL i) s) (l1 ++ i :: l2)
  /\ (forall j, In j l1 -> below (pc s j) (pc s i)) /\ (forall j, In j l2 -> below (pc s i) (pc s j))
  /\ wf s1 /\ base V Ts T (abs s1 vo)
  /\ (forall shape, line_contains Linear shape (unqueue (EL i) s) i = false
        /\ line_add Linear shape i (unqueue (EL i) s) = s1
        /\ line_above Linear shape s1 i = hd_error l2 /\ line_below Linear shape s1 i = last_error l1)
  /\ detect_above Linear i (hd_error l2) s1 = Ok s2 /\ wf s2 /\ divs s1 s2 /\ base V Ts T (abs s2 vo)
  /\ detect_below Linear i (last_error l1) s2 = Ok s' /\ divs s2 s'
  /\ lo (pc s i) = T /\ (forall j, In j (line s) -> T < hi (pc s j))
  /\ (forall ev, In ev (queue s) -> ev = EL i \/ kless (pc s) (evn s (EL i)) (evn s ev))
  /\ cuts V Ts T (fun _ => True) (abs s1 vo) (abs s' vo) /\ cuts V Ts T (fun _ => True) (abs s1 vo) (abs s2 vo).
Definition stepped_right (T : Qc) (s : state) (vo : list nat) (r : nat) (s' : state) : Prop :=
  exists l1 l2 s1, line s = l1 ++ r_left (rgt s r) :: l2 /\ s1 = with_line (unqueue (ER r) s) (l1 ++ l2)
  /\ wf s1 /\ base V Ts T (abs s1 (r_left (rgt s r) :: vo))
  /\ (forall shape, line_contains Linear shape (unqueue (ER r) s) (r_left (rgt s r)) = true
        /\ line_above Linear shape (unqueue (ER r) s) (r_left (rgt s r)) = hd_error l2
        /\ line_below Linear shape (unqueue (ER r) s) (r_left (rgt s r)) = last_error l1
        /\ line_remove Linear shape (r_left (rgt s r)) (unqueue (ER r) s) = Ok s1)
  /\ match hd_error l2, last_error l1 with
     | Some a, Some b => detect_only Linear b a s1
     | _, _ => Ok s1
     end = Ok s'
  /\ divs s1 s' /\ cuts V Ts T (fun _ => True) (abs s1 (r_left (rgt s r) :: vo)) (abs s' (r_left (rgt s r) :: vo)).
Definition stepped (T : Qc) (s : state) (vo : list nat) (ev : event) (s' : state) : Prop :=
  match ev with EL i => stepped_left T s vo i s' | ER r => stepped_right T s vo r s' end.

(** One iteration. *)
Lemma iteration : forall T s pl, good T s pl -> queue s <> [] ->
  exists ev, In ev (queue s) /\ (forall pick, pop Linear pick s = Ok (ev, unqueue ev s))
  /\ T <= time_of e s ev /\ inv (time_of e s ev) s (finished s pl)
  /\ (forall ev', In ev' (queue s) -> time_of e s ev <= time_of e s ev')
  /\ exists s', (forall o m, process_linear o m ev (unqueue ev s) = Ok s') /\ good (time_of e s ev) s' (pl ++ [ev])
     /\ finished s' (pl ++ [ev]) = finished_by s ev ++ finished s pl
     /\ (forall ev', In ev' (pl ++ [ev]) -> left_of s' ev' = left_of s ev')
     /\ (forall ev', In ev' (pl ++ [ev]) -> ev_start s' ev' = ev_start s ev')
     /\ (measure Ts (abs s' (finished s' (pl ++ [ev]))) < measure Ts (abs s (finished s pl)))%nat
     /\ stepped (time_of e s ev) s (finished s pl) ev s'.
Proof.
  intros T s pl Hk Hne. pose proof (k_inv _ _ _ Hk) as Hi.
  destruct (next_event e P Hsh T s (finished s pl) Hi Hne) as (ev & Hin & Hmin & Hpop & HT & Hi' & Hle & Hleft).
  exists ev. split; [exact Hin|]. split; [exact Hpop|]. split; [exact HT|]. split; [exact Hi'|]. split; [exact Hle|].
  pose proof (i_wf _ _ _ _ _ Hi) as Hw.
  pose proof (queue_nodup e s _ (b_q V Ts _ _ (i_base _ _ _ _ _ Hi))) as Hn.
  assert (Et : pos e (ev_start s ev) = time_of e s ev).
  { rewrite (ev_start_pos e s ev Hw (w_q s Hw ev Hin)). unfold time_of, ev_time. rewrite evn_left. reflexivity. }
  destruct ev as [i|r].
  - destruct (step_left e P Hsh (time_of e s (EL i)) s (finished s pl) i Hi' Hin eq_refl (Hleft i eq_refl))
      as (l1 & l2 & s1 & s2 & s3 & El & Es1 & Hb1 & Hb2 & W1 & B1 & Hline & D2 & W2 & Dv2 & B2 & D3 & Dv3 & I3 & Cu & Cu12).
    assert (Hs1 : lefts s1 = lefts s /\ rights s1 = rights s /\ queue s1 = queue (unqueue (EL i) s)) by (rewrite Es1; repeat split).
    destruct Hs1 as (S1 & S2 & S3).
    pose proof (divs_trans _ _ _ Dv2 Dv3) as Dv.
    destruct (good_finished T s pl (EL i) s1 s3 Hk Hin W1 S1 S2 S3 Dv) as (Hf & Hlo).
    exists s3. split.
    + intros o m. cbn [process_linear]. unfold add_left.
      destruct (Hline (o_shape o (2 * m))) as (_ & K1 & _). destruct (Hline (o_shape o (2 * m + 1))) as (_ & _ & K2 & K3).
      rewrite K1, K2, K3, D2. exact D3.
    + split; [|split; [exact Hf|split; [exact Hlo|split; [exact (good_starts T s pl (EL i) s1 s3 Hk Hin W1 S1 S2 Dv)|split]]]].
      * apply (good_next T _ s pl (EL i) s1 s3); try assumption.
      * rewrite Hf. cbn [finished_by app].
        pose proof (cuts_measure V Ts _ _ _ _ Cu B1).
        pose proof (measure_unqueue s (finished s pl) (finished s pl) (EL i) (l1 ++ i :: l2) Hn Hin) as K. rewrite <- Es1 in K. lia.
      * pose proof (Hleft i eq_refl) as Hhi. assert (Lo : lo (pc s i) = time_of e s (EL i)) by reflexivity. exists l1, l2, s1, s2. tauto.
  - destruct (step_right e P Hsh (time_of e s (ER r)) s (finished s pl) r Hi' Hin eq_refl Hmin)
      as (l1 & l2 & s1 & s2 & El & Es1 & W1 & B1 & Hline & D2 & Dv & I2 & Cu).
    set (y := r_left (rgt s r)) in *.
    assert (Hs1 : lefts s1 = lefts s /\ rights s1 = rights s /\ queue s1 = queue (unqueue (ER r) s)) by (rewrite Es1; repeat split).
    destruct Hs1 as (S1 & S2 & S3).
    destruct (good_finished T s pl (ER r) s1 s2 Hk Hin W1 S1 S2 S3 Dv) as (Hf & Hlo).
    exists s2. split.
    + intros o m. cbn [process_linear]. unfold remove_left.
      destruct (Hline (o_shape o (2 * m))) as (K1 & K2 & K3 & K4).
      change (r_left (rgt (unqueue (ER r) s) r)) with y. rewrite K1, K2, K3, K4. exact D2.
    + split; [|split; [exact Hf|split; [exact Hlo|split; [exact (good_starts T s pl (ER r) s1 s2 Hk Hin W1 S1 S2 Dv)|split]]]].
      * apply (good_next T _ s pl (ER r) s1 s2); try assumption.
      * rewrite Hf. cbn [finished_by app].
        pose proof (cuts_measure V Ts _ _ _ _ Cu B1).
        pose proof (measure_unqueue s (finished s pl) (y :: finished s pl) (ER r) (l1 ++ l2) Hn Hin) as K. rewrite <- Es1 in K.
        fold y. lia.
      * exists l1, l2, s1. fold y. tauto.
Qed.

(** ** The whole loop *)
Section Stop.
Variable stop : point -> bool.
Definition going (s : state) (pl : list event) : Prop := forall ev, In ev pl -> stop (ev_start s ev) = false.
Definition ended (s : state) (pl : list event) (sf : state) : Prop :=
  (queue s = [] /\ sf = s)
  \/ (exists ev, In ev (queue s) /\ stop (ev_start s ev) = true
       /\ (forall ev', In ev' (queue s) -> time_of e s ev <= time_of e s ev')
       /\ inv (time_of e s ev) s (finished s pl) /\ sf = unqueue ev s).

Lemma run_linear : forall fuel T s pl, good T s pl -> going s pl ->
  (measure Ts (abs s (finished s pl)) <= fuel)%nat ->
  exists T' s' pl' sf, good T' s' pl' /\ going s' pl' /\ ended s' pl' sf
  /\ (forall o n, run Linear (step_lefts o) stop o fuel n s (map EL (rev (finished s pl)))
        = Ok (sf, map EL (rev (finished s' pl'))))
  /\ (forall o n, run Linear (step_all o) stop o fuel n s pl = Ok (sf, pl')).
Proof.
  induction fuel as [|fuel IH]; intros T s pl Hk Hg Hm.
  - assert (Hq : queue s = []).
    { unfold measure in Hm. cbn [SweepLink.abs vq] in Hm. rewrite map_length in Hm. destruct (queue s); [reflexivity|cbn in Hm; lia]. }
    exists T, s, pl, s. split; [exact Hk|]. split; [exact Hg|]. split; [left; split; [exact Hq|reflexivity]|].
    split; intros o n; cbn [run]; rewrite Hq; reflexivity.
  - destruct (queue s) as [|ev0 q0] eqn:Eq.
    + exists T, s, pl, s. split; [exact Hk|]. split; [exact Hg|]. split; [left; split; [exact Eq|reflexivity]|].
      split; intros o n; cbn [run]; rewrite Eq; reflexivity.
    + destruct (iteration T s pl Hk) as (ev & Hin & Hpop & HT & Hi & Hle & s' & Hpr & Hk' & Hf & Hlo & Hst & Hm' & _); [rewrite Eq; discriminate|].
      destruct (stop (ev_start s ev)) eqn:Es.
      * exists T, s, pl, (unqueue ev s). split; [exact Hk|]. split; [exact Hg|]. split.
        { right. exists ev. split; [exact Hin|]. split; [exact Es|]. split; [exact Hle|]. split; [exact Hi|reflexivity]. }
        assert (Es' : stop (ev_start (unqueue ev s) ev) = true) by exact Es.
        split; intros o n; cbn [run]; rewrite Eq, Hpop, Es'; reflexivity.
      * assert (Es' : stop (ev_start (unqueue ev s) ev) = false) by exact Es.
        destruct (IH (time_of e s ev) s' (pl ++ [ev]) Hk') as (T' & s2 & pl2 & sf & Hk2 & Hg2 & He2 & Hr1 & Hr2).
        { intros ev' H. rewrite (Hst ev' H). rewrite in_app_iff in H. destruct H as [H|[<-|[]]]; [exact (Hg ev' H)|exact Es]. }
        { lia. }
        exists T', s2, pl2, sf. split; [exact Hk2|]. split; [exact Hg2|]. split; [exact He2|]. split; intros o n.
        -- cbn [run]. rewrite Eq, Hpop, Es'. unfold step_lefts at 1. rewrite Hpr.
           rewrite <- (Hr1 o (S n)). f_equal. rewrite Hf, rev_app_distr, map_app. f_equal.
           destruct ev as [i|r]; [reflexivity|]. cbn. f_equal. f_equal. apply (Hlo (ER r)). apply in_or_app; right; left; reflexivity.
        -- cbn [run]. rewrite Eq, Hpop, Es'. unfold step_all at 1. rewrite Hpr. apply Hr2.
Qed.
End Stop.
End Frame.
