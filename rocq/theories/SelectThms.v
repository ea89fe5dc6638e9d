(** Grouping of swept events by their endpoints and selection of groups.
    Proof support only, no part of /repo is modelled here. *)
From Coq Require Import Permutation Sorted.
From Verif Require Import QcTac Geom Spec GeomFacts SortFacts SweepInv SweepSteps Sweep SweepCmp Linear SweepLoop SweepStart SweepEnd Toward.

Lemma nodup_app_l : forall (A : Type) (l l' : list A), NoDup (l ++ l') -> NoDup l.
Proof.
  intros A l l'. induction l as [|x l IH]; intro H; [constructor|]. cbn in H. apply NoDup_cons_iff in H. destruct H as (H & H').
  constructor; [intro K; apply H; apply in_or_app; left; exact K|exact (IH H')].
Qed.
Lemma nodup_app_r : forall (A : Type) (l l' : list A), NoDup (l ++ l') -> NoDup l'.
Proof.
  intros A l l'. induction l as [|x l IH]; intro H; [exact H|]. cbn in H. apply NoDup_cons_iff in H. exact (IH (proj2 H)).
Qed.

Section Group.
Context {A K : Type} (eqb : K -> K -> bool) (key : A -> K).
Hypothesis eqb_spec : forall a b, reflect (a = b) (eqb a b).
Notation groups := (group_by eqb key).

Lemma group_by_concat : forall l, concat (map snd (groups l)) = l.
Proof.
  induction l as [|x l IH]; [reflexivity|]. cbn [group_by]. destruct (groups l) as [|(k, g) t].
  - cbn in *. rewrite <- IH. reflexivity.
  - destruct (eqb (key x) k); cbn in *; rewrite <- IH; reflexivity.
Qed.
Lemma group_by_head : forall x l, exists g t, groups (x :: l) = (key x, g) :: t.
Proof.
  intros x l. cbn [group_by]. destruct (groups l) as [|(k, g) t]; [exists [x], []; reflexivity|].
  destruct (eqb (key x) k); [exists (x :: g), t|exists [x], ((k, g) :: t)]; reflexivity.
Qed.
Lemma group_by_keys : forall l k g, In (k, g) (groups l) -> g <> [] /\ (forall x, In x g -> key x = k /\ In x l).
Proof.
  induction l as [|x l IH]; intros k g H; [destruct H|]. cbn [group_by] in H. destruct (groups l) as [|(k', g') t] eqn:E.
  - destruct H as [H|[]]. injection H as <- <-. split; [discriminate|]. intros y [<-|[]]. split; [reflexivity|left; reflexivity].
  - destruct (eqb_spec (key x) k') as [J|J]; cbn [In] in H.
    + destruct H as [H|H].
      * injection H as <- <-. destruct (IH k' g' (or_introl eq_refl)) as (_ & H2). split; [discriminate|].
        intros y [<-|Hy]; [split; [reflexivity|left; reflexivity]|]. destruct (H2 y Hy) as (H3 & H4). split; [congruence|right; exact H4].
      * destruct (IH k g (or_intror H)) as (H1 & H2). split; [exact H1|]. intros y Hy. destruct (H2 y Hy). split; [assumption|right; assumption].
    + destruct H as [H|H].
      * injection H as <- <-. split; [discriminate|]. intros y [<-|[]]. split; [reflexivity|left; reflexivity].
      * destruct (IH k g H) as (H1 & H2). split; [exact H1|]. intros y Hy. destruct (H2 y Hy). split; [assumption|right; assumption].
Qed.
Lemma group_by_cover : forall l x, In x l -> exists g, In (key x, g) (groups l) /\ In x g.
Proof.
  intros l x H. rewrite <- (group_by_concat l) in H. apply in_concat in H. destruct H as (g & Hg & Hx).
  apply in_map_iff in Hg. destruct Hg as ((k, g') & E & Hg). cbn in E. subst g'. exists g. split; [|exact Hx].
  destruct (group_by_keys l k g Hg) as (_ & K'). destruct (K' x Hx) as (-> & _). exact Hg.
Qed.

(** Elements with the same key follow each other. *)
Definition contiguous (l : list A) : Prop :=
  forall l1 x l2 y l3, l = l1 ++ x :: l2 ++ y :: l3 -> key x = key y -> forall z, In z l2 -> key z = key x.
Lemma contiguous_tail : forall x l, contiguous (x :: l) -> contiguous l.
Proof. intros x l H l1 a l2 b l3 E. apply (H (x :: l1) a l2 b l3). rewrite E. reflexivity. Qed.

Lemma group_by_contiguous : forall l, contiguous l ->
  NoDup (map fst (groups l)) /\ (forall k g x, In (k, g) (groups l) -> In x l -> key x = k -> In x g).
Proof.
  induction l as [|x l IH]; intro Hc; [split; [constructor|intros k g x []]|].
  destruct (IH (contiguous_tail x l Hc)) as (H1 & H2). clear IH.
  cbn [group_by]. destruct (groups l) as [|(k, g) t] eqn:E.
  - destruct l as [|y l]; [|destruct (group_by_head y l) as (g & t & E'); rewrite E' in E; discriminate E].
    split; [cbn; constructor; [intros []|constructor]|]. intros k g z [H|[]] Hz Ez. injection H as <- <-. exact Hz.
  - assert (Hx : forall y, In y l -> key y = key x -> key x = k).
    { intros y Hy Ey. destruct l as [|w l]; [destruct Hy|].
      destruct (group_by_head w l) as (g' & t' & E'). rewrite E' in E. injection E as E1 _ _. subst k.
      destruct Hy as [<-|Hy]; [symmetry; exact Ey|]. apply in_split in Hy. destruct Hy as (l1 & l2 & ->).
      symmetry. apply (Hc [] x (w :: l1) y l2 eq_refl (eq_sym Ey)). left. reflexivity. }
    destruct (eqb_spec (key x) k) as [J|J].
    + split; [cbn in *; rewrite J; exact H1|]. intros k' g' z [H|H] Hz Ez.
      * injection H as <- <-. destruct Hz as [->|Hz]; [left; reflexivity|right].
        apply (H2 k g z (or_introl eq_refl) Hz). congruence.
      * destruct Hz as [->|Hz]; [|exact (H2 k' g' z (or_intror H) Hz Ez)].
        exfalso. cbn in H1. apply NoDup_cons_iff in H1. apply (proj1 H1). apply in_map_iff. exists (k', g'). split; [cbn; congruence|exact H].
    + split.
      * cbn [map fst]. constructor; [|exact H1]. intro K'. change (In (key x) (map fst ((k, g) :: t))) in K'. apply in_map_iff in K'. destruct K' as ((k', g') & K1 & K2). cbn in K1. subst k'.
        rewrite <- E in K2. destruct (group_by_keys l _ g' K2) as (N & K3).
        destruct g' as [|y g']; [congruence|]. destruct (K3 y (or_introl eq_refl)) as (K4 & K5).
        apply J. exact (Hx y K5 K4).
      * intros k' g' z [H|H] Hz Ez.
        -- injection H as <- <-. destruct Hz as [->|Hz]; [left; reflexivity|]. exfalso. apply J. exact (Hx z Hz Ez).
        -- destruct Hz as [->|Hz]; [|exact (H2 k' g' z H Hz Ez)]. exfalso.
           rewrite <- E in H. destruct (group_by_keys l _ g' H) as (N & K3).
           destruct g' as [|y g']; [congruence|]. destruct (K3 y (or_introl eq_refl)) as (K4 & K5).
           apply J. apply (Hx y K5). congruence.
Qed.
Lemma group_by_nodup : forall l k g, NoDup l -> In (k, g) (groups l) -> NoDup g.
Proof.
  intros l k g H Hin. rewrite <- (group_by_concat l) in H.
  assert (Hg : In g (map snd (groups l))) by (apply in_map_iff; exists (k, g); split; [reflexivity|exact Hin]).
  revert H Hg. generalize (map snd (groups l)). intros gs. induction gs as [|h gs IH]; intros H Hg; [destruct Hg|].
  cbn in H. destruct Hg as [->|Hg].
  - apply nodup_app_l in H. exact H.
  - apply IH; [|exact Hg]. apply nodup_app_r in H. exact H.
Qed.
End Group.

Lemma next_contiguous : forall (A K : Type) (key : A -> K) (l : list A), NoDup l ->
  (forall x y, In x l -> In y l -> x <> y -> key x = key y -> next_to x y l) -> contiguous key l.
Proof.
  intros A K key l Hn H l1 x l2 y l3 E Ek z Hz. exfalso.
  assert (Hx : In x l) by (rewrite E; apply in_or_app; right; left; reflexivity).
  assert (Hy : In y l) by (rewrite E; apply in_or_app; right; right; apply in_or_app; right; left; reflexivity).
  assert (Hxy : x <> y).
  { intros ->. rewrite E in Hn. apply (NoDup_remove_2 _ _ _ Hn). apply in_or_app. right. apply in_or_app. right. left. reflexivity. }
  destruct (H x y Hx Hy Hxy Ek) as (m1 & m2 & Em).
  assert (Q : forall (u1 u2 w1 w2 : list A) a, u1 ++ a :: u2 = w1 ++ a :: w2 -> ~ In a (u1 ++ u2) -> u1 = w1 /\ u2 = w2).
  { clear. induction u1 as [|b u1 IH]; intros u2 [|c w1] w2 a Ex Hx; cbn in Ex.
    - injection Ex as ->. split; reflexivity.
    - injection Ex as -> ->. exfalso. apply Hx. cbn. apply in_or_app. right. left. reflexivity.
    - injection Ex as -> _. exfalso. apply Hx. left. reflexivity.
    - injection Ex as -> Ex. destruct (IH u2 w1 w2 a Ex) as (-> & ->); [intro J; apply Hx; right; exact J|]. split; reflexivity. }
  pose proof Hn as Hn'. rewrite E in Hn'. pose proof (NoDup_remove_2 _ _ _ Hn') as Nx.
  rewrite E in Em. destruct Em as [Em|Em].
  - destruct (Q _ _ _ _ _ Em Nx) as (_ & E2). destruct l2 as [|w l2]; [destruct Hz|]. cbn in E2. injection E2 as -> _.
    apply NoDup_remove in Hn'. destruct Hn' as (Hn' & _). cbn in Hn'. rewrite app_comm_cons in Hn'.
    apply nodup_app_r in Hn'. cbn in Hn'. inversion Hn' as [|? ? N _]. apply N. apply in_or_app. right. left. reflexivity.
  - assert (Em' : l1 ++ x :: l2 ++ y :: l3 = (m1 ++ [y]) ++ x :: m2) by (rewrite Em, <- app_assoc; reflexivity).
    destruct (Q _ _ _ _ _ Em' Nx) as (E1 & _). subst l1.
    apply NoDup_remove in Hn'. destruct Hn' as (Hn' & _). rewrite <- !app_assoc in Hn'. cbn in Hn'.
    apply (NoDup_remove_2 _ _ _ Hn'). apply in_or_app. right. apply in_or_app. right. left. reflexivity.
Qed.

(** ** Order of segments *)
Lemma seg_eqb_spec : forall a b, reflect (a = b) (seg_eqb a b).
Proof.
  intros [a b] [c d]. unfold seg_eqb. cbn. destruct (pt_eqb_spec a c) as [->|H], (pt_eqb_spec b d) as [->|J]; cbn; constructor; congruence.
Qed.
Lemma seg_ltb_spec : forall a b, reflect (segment_lt a b) (seg_ltb a b).
Proof.
  intros [a b] [c d]. unfold seg_ltb, segment_lt. cbn.
  destruct (pt_ltb_spec a c) as [H|H], (pt_eqb_spec a c) as [J|J], (pt_ltb_spec b d) as [I|I]; cbn; constructor; tauto.
Qed.
Lemma seg_lt_irrefl : forall a, ~ segment_lt a a.
Proof. intros a [H|(_ & H)]; exact (plt_irrefl _ H). Qed.
Lemma seg_lt_trans : forall a b c, segment_lt a b -> segment_lt b c -> segment_lt a c.
Proof.
  intros a b c [H|(H & H')] [J|(J & J')].
  - left. exact (plt_trans _ _ _ H J).
  - left. rewrite <- J. exact H.
  - left. rewrite H. exact J.
  - right. split; [congruence|exact (plt_trans _ _ _ H' J')].
Qed.
Lemma seg_lt_total : forall a b, segment_lt a b \/ a = b \/ segment_lt b a.
Proof.
  intros [a b] [c d]. unfold segment_lt. cbn. destruct (plt_total a c) as [H|[->|H]]; [tauto| |tauto].
  destruct (plt_total b d) as [H|[->|H]]; tauto.
Qed.
Lemma sort_segments_sorted : forall l, NoDup l -> StronglySorted segment_lt (sort_by seg_ltb l).
Proof.
  intros l Hn. assert (H : StronglySorted (fun a b => seg_ltb b a = false) (sort_by seg_ltb l)).
  { apply (sort_by_sorted seg_ltb (fun _ => True)).
    - intros x y z _ _ _ H J. destruct (seg_ltb_spec y x) as [|H']; [discriminate H|]. destruct (seg_ltb_spec z y) as [|J']; [discriminate J|].
      destruct (seg_ltb_spec z x) as [K|]; [exfalso|reflexivity].
      destruct (seg_lt_total x y) as [L|[->|L]]; [exact (J' (seg_lt_trans _ _ _ K L))|exact (J' K)|exact (H' L)].
    - intros x y _ _ H. destruct (seg_ltb_spec x y) as [H'|]; [|discriminate H]. destruct (seg_ltb_spec y x) as [J|]; [|reflexivity].
      exfalso. exact (seg_lt_irrefl x (seg_lt_trans _ _ _ H' J)).
    - apply Forall_forall. intros x _. exact I. }
  assert (Hn' : NoDup (sort_by seg_ltb l)) by (apply (Permutation_NoDup (Permutation_sym (sort_by_perm seg_ltb l))); exact Hn).
  revert Hn'. induction H as [|x t Hs IH Hx]; intro Hn'; constructor.
  - apply IH. apply NoDup_cons_iff in Hn'. exact (proj2 Hn').
  - apply NoDup_cons_iff in Hn'. destruct Hn' as (N & _). rewrite Forall_forall in Hx |- *. intros y Hy. pose proof (Hx y Hy) as K.
    destruct (seg_ltb_spec y x) as [|K']; [discriminate K|]. destruct (seg_lt_total x y) as [L|[->|L]]; [exact L|contradiction|contradiction].
Qed.


Section Select.
Variables (l : tagged) (x_max : option Qc) (s : state) (out : list nat).
Hypothesis H : swept l x_max s out.

Lemma piece_proper : forall i, (i < length (lefts s))%nat -> proper (seg_of s i).
Proof. intros i Hi E. cbn in E. pose proof (sw_plt _ _ _ _ H i Hi) as K. rewrite E in K. exact (plt_irrefl _ K). Qed.

(** Pieces with two distinct common points are twins. *)
Lemma piece_twin : forall i j p, In i out -> (j < length (lefts s))%nat -> j <> i ->
  on_segment p (seg_of s i) -> on_segment p (seg_of s j) -> ~ (endpoint p (seg_of s i) /\ endpoint p (seg_of s j)) ->
  In j out /\ seg_of s i = seg_of s j /\ l_first (lft s i) <> l_first (lft s j) /\ next_to i j out.
Proof.
  intros i j p Hi Hj Hn Pi Pj Hp. destruct (sw_apart _ _ _ _ H i j Hi Hj Hn) as [K|K]; [exfalso|exact K].
  exact (Hp (K p Pi Pj)).
Qed.
Lemma same_twin : forall i j, In i out -> In j out -> i <> j -> seg_of s i = seg_of s j ->
  l_first (lft s i) <> l_first (lft s j) /\ next_to i j out.
Proof.
  intros i j Hi Hj Hn E. pose proof (sw_range _ _ _ _ H j Hj) as Rj.
  destruct (midpoint_inside _ (piece_proper j Rj)) as (m & Hm & N1 & N2).
  assert (Hm' : on_segment m (seg_of s i)) by (rewrite E; exact Hm).
  destruct (piece_twin i j m Hi Rj (not_eq_sym Hn) Hm' Hm) as (_ & _ & K); [|exact K].
  intros (_ & [K|K]); [exact (N1 K)|exact (N2 K)].
Qed.

Definition alone (i : nat) : Prop := forall j, In j out -> j <> i -> seg_of s j <> seg_of s i.
Definition paired (i j : nat) : Prop := In i out /\ In j out /\ seg_of s i = seg_of s j /\ l_first (lft s i) <> l_first (lft s j).

Notation key := (ev_segment s).
Notation events := (map EL out).
Lemma events_contiguous : contiguous key events.
Proof.
  apply next_contiguous.
  - apply FinFun.Injective_map_NoDup; [intros a b E; injection E as E; exact E|exact (sw_nodup _ _ _ _ H)].
  - intros x y Hx Hy Hn E. apply in_map_iff in Hx. apply in_map_iff in Hy. destruct Hx as (i & <- & Hi), Hy as (j & <- & Hj).
    assert (Hij : i <> j) by congruence. destruct (same_twin i j Hi Hj Hij E) as (_ & l1 & l2 & K).
    exists (map EL l1), (map EL l2). destruct K as [K|K]; [left|right]; rewrite K, map_app; reflexivity.
Qed.
Lemma group_shape : forall k g, In (k, g) (group_by seg_eqb key events) ->
  (exists i, In i out /\ k = seg_of s i /\ g = [EL i] /\ alone i)
  \/ (exists i j, paired i j /\ k = seg_of s i /\ g = [EL i; EL j]).
Proof.
  intros k g Hin. destruct (group_by_keys seg_eqb key seg_eqb_spec _ _ _ Hin) as (Hne & Hk).
  assert (Hk' : forall x, In x g -> exists i, x = EL i /\ In i out /\ seg_of s i = k).
  { intros x Hx. destruct (Hk x Hx) as (E & K). apply in_map_iff in K. destruct K as (i & <- & Hi). exists i. repeat split; assumption. }
  destruct (group_by_contiguous seg_eqb key seg_eqb_spec _ events_contiguous) as (_ & Hall).
  assert (Hn : NoDup g).
  { apply (group_by_nodup seg_eqb key) with (l := events) (k := k); [|exact Hin].
    apply FinFun.Injective_map_NoDup; [intros a b E; injection E as E; exact E|exact (sw_nodup _ _ _ _ H)]. }
  destruct g as [|x g]; [congruence|]. destruct (Hk' x (or_introl eq_refl)) as (i & -> & Hi & Ei).
  destruct g as [|y g].
  - left. exists i. split; [exact Hi|]. split; [symmetry; exact Ei|]. split; [reflexivity|].
    intros j Hj Hji E. assert (K : In (EL j) [EL i]).
    { apply (Hall k _ (EL j) Hin); [apply in_map; exact Hj|]. change (seg_of s j = k). congruence. }
    destruct K as [K|[]]. congruence.
  - destruct (Hk' y (or_intror (or_introl eq_refl))) as (j & -> & Hj & Ej).
    assert (Hij : i <> j).
    { intros ->. apply NoDup_cons_iff in Hn. apply (proj1 Hn). left. reflexivity. }
    destruct (same_twin i j Hi Hj Hij ltac:(congruence)) as (Fij & _).
    right. exists i, j. split; [unfold paired; repeat split; congruence|]. split; [symmetry; exact Ei|].
    destruct g as [|z g]; [reflexivity|exfalso].
    destruct (Hk' z (or_intror (or_intror (or_introl eq_refl)))) as (m & -> & Hm & Em).
    assert (Him : i <> m) by (intros ->; apply NoDup_cons_iff in Hn; apply (proj1 Hn); right; left; reflexivity).
    assert (Hjm : j <> m).
    { intros ->. apply NoDup_cons_iff in Hn. destruct Hn as (_ & Hn). apply NoDup_cons_iff in Hn. apply (proj1 Hn). left. reflexivity. }
    destruct (same_twin i m Hi Hm Him ltac:(congruence)) as (Fim & _). destruct (same_twin j m Hj Hm Hjm ltac:(congruence)) as (Fjm & _).
    destruct (l_first (lft s i)), (l_first (lft s j)), (l_first (lft s m)); congruence.
Qed.

Variable test : list bool -> bool.
Hypothesis test_sym : test [true; false] = test [false; true].
Notation result := (select test (s, events)).

Lemma select_in : forall k, In k result <->
  exists i, In i out /\ k = seg_of s i
    /\ ((alone i /\ test [l_first (lft s i)] = true) \/ ((exists j, paired i j) /\ test [true; false] = true)).
Proof.
  intro k. unfold select. rewrite (sort_by_in seg_ltb). split.
  - intro K. apply in_map_iff in K. destruct K as ((k', g) & E & K). cbn in E. subst k'. apply filter_In in K. destruct K as (Hin & Ht). cbn in Ht.
    destruct (group_shape k g Hin) as [(i & Hi & Ek & Eg & Ha)|(i & j & Hp & Ek & Eg)]; subst g.
    + exists i. split; [exact Hi|]. split; [exact Ek|]. left. split; [exact Ha|exact Ht].
    + exists i. split; [exact (proj1 Hp)|]. split; [exact Ek|]. right. split; [exists j; exact Hp|].
      destruct Hp as (_ & _ & _ & Hd). cbn in Ht. change (l_first (lft s (left_of s (EL i)))) with (l_first (lft s i)) in Ht.
      change (ev_first s (EL i)) with (l_first (lft s i)) in Ht. change (ev_first s (EL j)) with (l_first (lft s j)) in Ht.
      destruct (l_first (lft s i)), (l_first (lft s j)); congruence.
  - intros (i & Hi & Ek & Ht). destruct (group_by_cover seg_eqb key seg_eqb_spec events (EL i)) as (g & Hg & Hig); [apply in_map; exact Hi|].
    apply in_map_iff. exists (key (EL i), g). split; [symmetry; exact Ek|]. apply filter_In. split; [exact Hg|]. cbn [snd].
    destruct (group_shape _ g Hg) as [(a & Ha & Ea & Eg & Hal)|(a & b & Hp & Ea & Eg)]; subst g.
    + destruct Hig as [E|[]]. injection E as ->. destruct Ht as [(_ & Ht)|((j & Hj) & _)]; [exact Ht|].
      exfalso. destruct Hj as (_ & J & E & F). apply (Hal j J); [intros ->; congruence|symmetry; exact E].
    + pose proof Hp as (Pa & Pb & Pe & Pf). change (key (EL i)) with (seg_of s i) in Ea.
      assert (Hno : ~ alone i).
      { intro K. destruct Hig as [E|[E|[]]]; injection E as ->.
        - apply (K b Pb); [intros ->; congruence|congruence].
        - apply (K a Pa); [intros ->; congruence|congruence]. }
      destruct Ht as [(Ha & _)|(_ & Ht)]; [exfalso; exact (Hno Ha)|].
      cbn. change (ev_first s (EL a)) with (l_first (lft s a)). change (ev_first s (EL b)) with (l_first (lft s b)).
      destruct (l_first (lft s a)), (l_first (lft s b)); congruence.
Qed.
Lemma map_filter_nodup : forall (A B : Type) (f : A -> B) p (m : list A), NoDup (map f m) -> NoDup (map f (filter p m)).
Proof.
  intros A B f p m. induction m as [|x m IH]; intro N; [constructor|]. cbn in *. apply NoDup_cons_iff in N. destruct N as (N & N').
  destruct (p x); [|exact (IH N')]. cbn. constructor; [|exact (IH N')]. intro K. apply N. apply in_map_iff in K. destruct K as (y & E & K).
  apply in_map_iff. exists y. split; [exact E|]. apply filter_In in K. exact (proj1 K).
Qed.
Lemma select_sorted : StronglySorted segment_lt result.
Proof.
  unfold select. apply sort_segments_sorted. apply map_filter_nodup.
  exact (proj1 (group_by_contiguous seg_eqb key seg_eqb_spec _ events_contiguous)).
Qed.
(** Selected segments go in the increasing direction and meet only in common endpoints. *)
Lemma select_plt : forall k, In k result -> plt (s_start k) (s_end k).
Proof. intros k K. apply select_in in K. destruct K as (i & Hi & -> & _). exact (sw_plt _ _ _ _ H i (sw_range _ _ _ _ H i Hi)). Qed.
Lemma select_apart : forall k k', In k result -> In k' result -> k <> k' ->
  forall p, on_segment p k -> on_segment p k' -> endpoint p k /\ endpoint p k'.
Proof.
  intros k k' K K' Hn p Hp Hp'. apply select_in in K. apply select_in in K'.
  destruct K as (i & Hi & -> & _), K' as (j & Hj & -> & _).
  assert (Hij : j <> i) by (intros ->; congruence).
  destruct (sw_apart _ _ _ _ H i j Hi (sw_range _ _ _ _ H j Hj) Hij) as [Q|(_ & Q & _)]; [exact (Q p Hp Hp')|congruence].
Qed.
End Select.
