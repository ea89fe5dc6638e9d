(** Correctness of CompleteIntersection of linear.py. *)
From Coq Require Import Permutation Sorted.
From Verif Require Import QcTac Geom Spec GeomFacts SortFacts PairFacts PairThms Unique LoopThms Pair Bounding Toward BoundingThms UnpackThms SweepInv SweepSteps Sweep SweepCmp Linear SweepLoop SweepStart SweepEnd SelectThms LinearMeaning LinearThms.

(** ** Lists *)
Inductive sublist {A : Type} : list A -> list A -> Prop :=
| sub_nil : sublist [] []
| sub_skip : forall x l l', sublist l l' -> sublist l (x :: l')
| sub_keep : forall x l l', sublist l l' -> sublist (x :: l) (x :: l').
Lemma sublist_nil : forall (A : Type) (l : list A), sublist [] l.
Proof. intros A l. induction l; [constructor|apply sub_skip; assumption]. Qed.
Lemma sublist_app : forall (A : Type) (a b c d : list A), sublist a b -> sublist c d -> sublist (a ++ c) (b ++ d).
Proof. intros A a b c d H K. induction H; cbn; [exact K|apply sub_skip; assumption|apply sub_keep; assumption]. Qed.
Lemma sublist_in : forall (A : Type) (a b : list A) x, sublist a b -> In x a -> In x b.
Proof. intros A a b x H. induction H as [|y l l' H IH|y l l' H IH]; intro K; [exact K|right; exact (IH K)|]. destruct K as [->|K]; [left; reflexivity|right; exact (IH K)]. Qed.
Lemma sublist_sorted : forall (A : Type) (R : A -> A -> Prop) a b, sublist a b -> StronglySorted R b -> StronglySorted R a.
Proof.
  intros A R a b H. induction H as [|y l l' H IH|y l l' H IH]; intro K; [constructor|inversion K; subst; auto|].
  inversion K as [|? ? K1 K2]; subst. constructor; [exact (IH K1)|]. rewrite Forall_forall in *. intros z Hz. apply K2. exact (sublist_in _ _ _ _ H Hz).
Qed.
Lemma sublist_nodup : forall (A : Type) (a b : list A), sublist a b -> NoDup b -> NoDup a.
Proof.
  intros A a b H. induction H as [|y l l' H IH|y l l' H IH]; intro K; [constructor|inversion K; subst; auto|].
  inversion K as [|? ? K1 K2]; subst. constructor; [|exact (IH K2)]. intro J. apply K1. exact (sublist_in _ _ _ _ H J).
Qed.
Lemma sublist_combine : forall (A B : Type) (P : A * B -> bool) g h, sublist (map fst (filter P (combine g h))) g.
Proof.
  intros A B P g. induction g as [|x g IH]; intro h; [constructor|]. destruct h as [|y h]; [apply sublist_nil|]. cbn.
  destruct (P (x, y)); cbn; [apply sub_keep|apply sub_skip]; apply IH.
Qed.
Lemma sublist_flat : forall (A B : Type) (f : B -> list A) (c : B -> list A) (Q : B -> bool) gs, (forall g, sublist (f g) (c g)) ->
  sublist (flat_map f (filter Q gs)) (concat (map c gs)).
Proof.
  intros A B f c Q gs H. induction gs as [|g gs IH]; [constructor|]. cbn. destruct (Q g); cbn.
  - apply sublist_app; [apply H|exact IH].
  - apply (sublist_app _ [] (c g)); [apply sublist_nil|exact IH].
Qed.
Lemma sublist_filter : forall (A : Type) (P : A -> bool) l, sublist (filter P l) l.
Proof. intros A P l. induction l as [|x l IH]; [constructor|]. cbn. destruct (P x); [apply sub_keep|apply sub_skip]; exact IH. Qed.
Lemma sublist_map : forall (A B : Type) (f : A -> B) a b, sublist a b -> sublist (map f a) (map f b).
Proof. intros A B f a b H. induction H; cbn; [constructor|apply sub_skip; assumption|apply sub_keep; assumption]. Qed.
Lemma sublist_trans : forall (A : Type) (a b c : list A), sublist a b -> sublist b c -> sublist a c.
Proof.
  intros A a b c H K. revert a H. induction K as [|y l l' K IH|y l l' K IH]; intros a H; [exact H|apply sub_skip; exact (IH a H)|].
  inversion H; subst; [apply sub_skip|apply sub_keep]; apply IH; assumption.
Qed.

Lemma in_combine_tl : forall (A : Type) (g : list A) x y, In (x, y) (combine g (tl g)) <-> exists g1 g2, g = g1 ++ x :: y :: g2.
Proof.
  intros A g x y. split.
  - induction g as [|a g IH]; [intros []|]. cbn [tl]. destruct g as [|b g]; [intros []|]. cbn [combine]. intros [K|K].
    + injection K as -> ->. exists [], g. reflexivity.
    + destruct (IH K) as (g1 & g2 & E). exists (a :: g1), g2. rewrite E. reflexivity.
  - intros (g1 & g2 & ->). induction g1 as [|a g1 IH]; [left; reflexivity|]. cbn [app tl].
    destruct (g1 ++ x :: y :: g2) as [|b r] eqn:E; [destruct g1; discriminate E|]. right. exact IH.
Qed.
Lemma in_before : forall (A : Type) (l : list A) x y, In x l -> In y l -> x <> y ->
  (exists l1 m l3, l = l1 ++ x :: m ++ y :: l3) \/ (exists l1 m l3, l = l1 ++ y :: m ++ x :: l3).
Proof.
  intros A l x y Hx Hy N. apply in_split in Hx. destruct Hx as (a & b & ->). apply in_app_or in Hy. destruct Hy as [Hy|[Hy|Hy]].
  - right. apply in_split in Hy. destruct Hy as (c & d & ->). exists c, d, b. rewrite <- app_assoc. reflexivity.
  - congruence.
  - left. apply in_split in Hy. destruct Hy as (c & d & ->). exists a, c, d. reflexivity.
Qed.
Lemma sorted_before : forall (A : Type) (R : A -> A -> Prop) l1 x m y l3, StronglySorted R (l1 ++ x :: m ++ y :: l3) ->
  R x y /\ forall z, In z m -> R x z /\ R z y.
Proof.
  intros A R l1 x m y l3. induction l1 as [|a l1 IH]; cbn; intro S; inversion S as [|? ? S1 S2]; subst; [|exact (IH S1)].
  rewrite Forall_forall in S2. split; [apply S2; apply in_or_app; right; left; reflexivity|].
  intros z Hz. split; [apply S2; apply in_or_app; left; exact Hz|].
  clear S S2. induction m as [|b m IHm]; [destruct Hz|]. cbn in S1. inversion S1 as [|? ? S3 S4]; subst. destruct Hz as [->|Hz]; [|exact (IHm S3 Hz)].
  rewrite Forall_forall in S4. apply S4. apply in_or_app. right. left. reflexivity.
Qed.

Section Groups.
Context {A K : Type} (eqb : K -> K -> bool) (key : A -> K).
Hypothesis eqb_spec : forall a b, reflect (a = b) (eqb a b).
Notation groups := (group_by eqb key).
Lemma group_head : forall x l, exists g t, groups (x :: l) = (key x, x :: g) :: t.
Proof.
  intros x l. cbn [group_by]. destruct (groups l) as [|(k, g) t]; [exists [], []; reflexivity|].
  destruct (eqb (key x) k); [exists g, t|exists [], ((k, g) :: t)]; reflexivity.
Qed.
Lemma group_adjacent : forall l1 x y l2, key x = key y -> exists k g g1 g2, In (k, g) (groups (l1 ++ x :: y :: l2)) /\ g = g1 ++ x :: y :: g2.
Proof.
  intros l1 x y l2 E. induction l1 as [|a l1 (k & g & g1 & g2 & Hin & Eg)].
  - cbn [app]. destruct (group_head y l2) as (g & t & Eg). cbn [group_by] in Eg |- *. rewrite Eg.
    destruct (eqb_spec (key x) (key y)) as [_|N]; [|congruence]. exists (key x), (x :: y :: g), [], g. split; [left; reflexivity|reflexivity].
  - cbn [app group_by]. destruct (groups (l1 ++ x :: y :: l2)) as [|(k', g') t]; [destruct Hin|].
    destruct (eqb (key a) k').
    + destruct Hin as [Hin|Hin].
      * injection Hin as -> ->. exists (key a), (a :: g), (a :: g1), g2. split; [left; reflexivity|rewrite Eg; reflexivity].
      * exists k, g, g1, g2. split; [right; exact Hin|exact Eg].
    + exists k, g, g1, g2. split; [right; exact Hin|exact Eg].
Qed.
Lemma group_adjacent_inv : forall l k g g1 x y g2, In (k, g) (groups l) -> g = g1 ++ x :: y :: g2 -> exists l1 l2, l = l1 ++ x :: y :: l2.
Proof.
  intros l k g g1 x y g2 Hin Eg. apply in_split in Hin. destruct Hin as (a & b & E).
  pose proof (group_by_concat eqb key l) as C. rewrite E, map_app, concat_app in C. cbn in C. subst g.
  exists (concat (map snd a) ++ g1), (g2 ++ concat (map snd b)). rewrite <- C, <- !app_assoc. reflexivity.
Qed.
End Groups.

Lemma all_equal_spec : forall l, all_equal l = false <-> In true l /\ In false l.
Proof.
  intro l. unfold all_equal. split.
  - intro K. destruct (group_by Bool.eqb (fun b => b) l) as [|(k, g) [|(k', g') t]] eqn:E; [discriminate K|discriminate K|]. clear K.
    assert (Sp : forall a b, reflect (a = b) (Bool.eqb a b)) by (intros [] []; constructor; congruence).
    assert (Hk : k <> k').
    { clear - E Sp. revert k g k' g' t E. induction l as [|x l IH]; intros k g k' g' t E; [discriminate E|]. cbn [group_by] in E.
      destruct (group_by Bool.eqb (fun b : bool => b) l) as [|(k0, g0) t0] eqn:E0; [discriminate E|].
      destruct (Sp x k0) as [J|J].
      - injection E as <- <- Et. subst x t0. exact (IH k0 g0 k' g' t eq_refl).
      - injection E as <- <- <- <- <-. exact J. }
    destruct (group_by_keys Bool.eqb (fun b => b) Sp l k g) as (Hg & Hg'); [rewrite E; left; reflexivity|].
    destruct (group_by_keys Bool.eqb (fun b => b) Sp l k' g') as (Hh & Hh'); [rewrite E; right; left; reflexivity|].
    destruct g as [|x g]; [congruence|]. destruct g' as [|y g']; [congruence|].
    destruct (Hg' x (or_introl eq_refl)) as (<- & Ix). destruct (Hh' y (or_introl eq_refl)) as (<- & Iy).
    destruct x, y; try congruence; split; assumption.
  - intros (H1 & H2). destruct (group_by Bool.eqb (fun b => b) l) as [|(k, g) [|h t]] eqn:E; [| |reflexivity]; exfalso.
    + pose proof (group_by_concat Bool.eqb (fun b => b) l) as C. rewrite E in C. cbn in C. subst l. destruct H1.
    + assert (Sp : forall a b, reflect (a = b) (Bool.eqb a b)) by (intros [] []; constructor; congruence).
      destruct (group_by_keys Bool.eqb (fun b => b) Sp l k g) as (_ & Hg); [rewrite E; left; reflexivity|].
      pose proof (group_by_concat Bool.eqb (fun b => b) l) as C. rewrite E in C. cbn in C. rewrite app_nil_r in C. subst l.
      pose proof (proj1 (Hg _ H1)). pose proof (proj1 (Hg _ H2)). cbn in *. congruence.
Qed.

Section Complete.
Variables (first second : list segment) (x_max : option Qc) (s : state) (out : list nat) (pl : list event).
Hypothesis H : swept (tag first second) x_max s out.
Hypothesis Hp : processed x_max s out pl.
Variable b : bool.
Hypothesis Hc : covers first second x_max b.
Notation side i := (l_first (lft s i)).
Notation key := (ev_segment s).
Notation lt := (fun x y => seg_ltb (key x) (key y)).
Notation le := (fun x y => seg_ltb (key y) (key x) = false).
Notation events := (sort_by lt pl).
Notation n := (length (lefts s)).

Lemma seg_le : forall x y, seg_ltb y x = false <-> segment_lt x y \/ x = y.
Proof.
  intros x y. destruct (seg_ltb_spec y x) as [K|K].
  - split; [discriminate|]. intros [J| ->]; exfalso; [exact (seg_lt_irrefl _ (seg_lt_trans _ _ _ K J))|exact (seg_lt_irrefl _ K)].
  - split; [intros _|reflexivity]. destruct (seg_lt_total x y) as [J|[J|J]]; [left; exact J|right; exact J|contradiction].
Qed.
Lemma events_sorted : StronglySorted le events.
Proof.
  apply (sort_by_sorted lt (fun _ => True)).
  - intros x y z _ _ _ K1 K2. apply seg_le in K1. apply seg_le in K2. apply seg_le.
    destruct K1 as [K1|K1], K2 as [K2|K2]; [left; exact (seg_lt_trans _ _ _ K1 K2)|left; rewrite <- K2; exact K1|left; rewrite K1; exact K2|right; congruence].
  - intros x y _ _ K. apply seg_le. left. destruct (seg_ltb_spec (key x) (key y)) as [J|J]; [exact J|discriminate K].
  - apply Forall_forall. intros x _. exact I.
Qed.
Lemma events_in : forall ev, In ev events <-> In ev pl.
Proof. intro ev. apply (sort_by_in lt). Qed.
Lemma events_nodup : NoDup events.
Proof. apply (Permutation_NoDup (Permutation_sym (sort_by_perm lt pl))). exact (pr_nodup _ _ _ _ Hp). Qed.
Lemma starts_le : forall x y, seg_ltb (key y) (key x) = false -> ple (ev_start s x) (ev_start s y).
Proof.
  intros x y K. apply seg_le in K. apply ple_lt_eq. destruct K as [[K|(K & _)]|K]; [left; exact K|right; exact K|right].
  exact (f_equal s_start K).
Qed.
Lemma events_contiguous : contiguous (ev_start s) events.
Proof.
  intros l1 x l2 y l3 E Ek z Hz. pose proof events_sorted as S. rewrite E in S.
  destruct (sorted_before _ _ _ _ _ _ _ S) as (_ & K). destruct (K z Hz) as (K1 & K2). apply starts_le in K1. apply starts_le in K2.
  rewrite <- Ek in K2. apply ple_lt_eq in K1. destruct K1 as [K1|K1]; [|symmetry; exact K1]. exfalso. exact (K2 K1).
Qed.

(** Events and their pieces. *)
Lemma event_range : forall ev, In ev pl -> (left_of s ev < n)%nat.
Proof.
  intros ev K. pose proof (pr_range _ _ _ _ Hp ev K) as R. destruct ev as [i|r]; cbn in *; [exact R|].
  destruct (pr_wf _ _ _ _ Hp) as (_ & _ & W). exact (proj1 (W r R)).
Qed.
Lemma event_endpoint : forall ev, In ev pl -> endpoint (ev_start s ev) (seg_of s (left_of s ev)).
Proof.
  intros ev K. pose proof (pr_range _ _ _ _ Hp ev K) as R. destruct ev as [i|r]; cbn in *; [left; reflexivity|right].
  destruct (pr_wf _ _ _ _ Hp) as (_ & _ & W). cbn. unfold end_of. rewrite (proj2 (W r R)). reflexivity.
Qed.
Lemma right_key : forall r, (r < length (rights s))%nat ->
  key (ER r) = Seg (end_of s (r_left (rgt s r))) (l_start (lft s (r_left (rgt s r)))).
Proof.
  intros r R. destruct (pr_wf _ _ _ _ Hp) as (_ & _ & W). unfold ev_segment, end_of. cbn. rewrite (proj2 (W r R)). reflexivity.
Qed.
(** Events with the same endpoints are of the same kind and of coinciding pieces. *)
Lemma same_key : forall x y, In x pl -> In y pl -> key x = key y ->
  is_left x = is_left y /\ seg_of s (left_of s x) = seg_of s (left_of s y).
Proof.
  intros x y Hx Hy E. pose proof (pr_range _ _ _ _ Hp x Hx) as Rx. pose proof (pr_range _ _ _ _ Hp y Hy) as Ry.
  pose proof (sw_plt _ _ _ _ H _ (event_range x Hx)) as Px. pose proof (sw_plt _ _ _ _ H _ (event_range y Hy)) as Py.
  destruct x as [i|r], y as [j|q]; cbn [left_of is_left] in *.
  - split; [reflexivity|exact E].
  - exfalso. rewrite (right_key q Ry) in E. pose proof (f_equal s_start E) as Ea. pose proof (f_equal s_end E) as Eb. cbn in Ea, Eb.
    rewrite Ea, Eb in Px. exact (plt_irrefl _ (plt_trans _ _ _ Px Py)).
  - exfalso. rewrite (right_key r Rx) in E. pose proof (f_equal s_start E) as Ea. pose proof (f_equal s_end E) as Eb. cbn in Ea, Eb.
    rewrite Ea, Eb in Px. exact (plt_irrefl _ (plt_trans _ _ _ Px Py)).
  - split; [reflexivity|]. rewrite (right_key r Rx), (right_key q Ry) in E. pose proof (f_equal s_start E) as Ea. pose proof (f_equal s_end E) as Eb. cbn in Ea, Eb.
    unfold seg_of. rewrite Ea, Eb. reflexivity.
Qed.
Lemma left_inj : forall x y, In x pl -> In y pl -> is_left x = is_left y -> left_of s x = left_of s y -> x = y.
Proof.
  intros x y Hx Hy K E. pose proof (pr_range _ _ _ _ Hp x Hx) as Rx. pose proof (pr_range _ _ _ _ Hp y Hy) as Ry.
  destruct x as [i|r], y as [j|q]; cbn in *; try discriminate K; [congruence|].
  destruct (pr_wf _ _ _ _ Hp) as (_ & _ & W). rewrite <- (proj2 (W r Rx)), <- (proj2 (W q Ry)), E. reflexivity.
Qed.
(** Coinciding pieces of different operands are finished. *)
Lemma twins_out : forall i j, (i < n)%nat -> (j < n)%nat -> seg_of s i = seg_of s j -> side i <> side j -> paired s out i j.
Proof.
  intros i j Hi Hj E F. assert (N : i <> j) by (intros ->; congruence).
  destruct (midpoint_inside _ (piece_proper _ _ _ _ H i Hi)) as (m & Mi & M1 & M2).
  assert (Mj : on_segment m (seg_of s j)) by (rewrite <- E; exact Mi).
  assert (Hcase : side i = b \/ side j = b) by (destruct (Bool.bool_dec (side i) b) as [K|K]; [left; exact K|right]; destruct (side i), (side j), b; congruence).
  destruct Hcase as [K|K].
  - pose proof (covered _ _ _ _ _ H b i Hc Hi K) as Io.
    destruct (piece_twin _ _ _ _ H i j m Io Hj (not_eq_sym N) Mi Mj) as (J & _); [intros ([Q|Q] & _); contradiction|].
    unfold paired. repeat split; assumption.
  - pose proof (covered _ _ _ _ _ H b j Hc Hj K) as Jo. rewrite E in M1, M2.
    destruct (piece_twin _ _ _ _ H j i m Jo Hi N Mj Mi) as (I & _); [intros ([Q|Q] & _); contradiction|].
    unfold paired. repeat split; assumption.
Qed.
Lemma only_twin : forall i j k, paired s out i j -> (k < n)%nat -> seg_of s k = seg_of s i -> k = i \/ k = j.
Proof.
  intros i j k (Hi & Hj & E & F) Hk Ek.
  destruct (Nat.eq_dec k i) as [->|N1]; [left; reflexivity|]. destruct (Nat.eq_dec k j) as [->|N2]; [right; reflexivity|]. exfalso.
  destruct (midpoint_inside _ (piece_proper _ _ _ _ H k Hk)) as (m & Mk & M1 & M2).
  assert (Mi : on_segment m (seg_of s i)) by (rewrite <- Ek; exact Mk). assert (Mj : on_segment m (seg_of s j)) by (rewrite <- E; exact Mi).
  destruct (piece_twin _ _ _ _ H i k m Hi Hk N1 Mi Mk) as (_ & _ & F1 & _); [intros (_ & [Q|Q]); contradiction|].
  destruct (piece_twin _ _ _ _ H j k m Hj Hk N2 Mj Mk) as (_ & _ & F2 & _); [intros (_ & [Q|Q]); contradiction|].
  destruct (side i), (side j), (side k); congruence.
Qed.

(** Adjacent events of coinciding pieces of different operands. *)
Definition shared (x y : event) : Prop :=
  In x pl /\ In y pl /\ key x = key y /\ ev_first s x <> ev_first s y.
Definition sharedb (x y : event) : bool :=
  negb (Bool.eqb (ev_first s x) (ev_first s y)) && pt_eqb (ev_start s x) (ev_start s y) && pt_eqb (ev_end s x) (ev_end s y).
Lemma sharedb_spec : forall x y, In x pl -> In y pl -> (sharedb x y = true <-> shared x y).
Proof.
  intros x y Hx Hy. unfold sharedb, shared. rewrite !andb_true_iff, negb_true_iff, Bool.eqb_false_iff.
  split.
  - intros ((K1 & K2) & K3). split; [exact Hx|]. split; [exact Hy|]. split; [|exact K1].
    destruct (pt_eqb_spec (ev_start s x) (ev_start s y)) as [E1|]; [|discriminate K2]. destruct (pt_eqb_spec (ev_end s x) (ev_end s y)) as [E2|]; [|discriminate K3].
    unfold ev_segment. rewrite E1, E2. reflexivity.
  - intros (_ & _ & E & K). pose proof (f_equal s_start E) as Ea. pose proof (f_equal s_end E) as Eb. cbn in Ea, Eb.
    rewrite Ea, Eb, !pt_eqb_refl. repeat split. exact K.
Qed.
Lemma shared_paired : forall x y, shared x y -> paired s out (left_of s x) (left_of s y).
Proof.
  intros x y (Hx & Hy & E & F). destruct (same_key x y Hx Hy E) as (_ & K). apply twins_out; [exact (event_range x Hx)|exact (event_range y Hy)|exact K|exact F].
Qed.
Lemma shared_only : forall x y z, shared x y -> In z pl -> key z = key x -> z = x \/ z = y.
Proof.
  intros x y z Sh Hz E. pose proof (shared_paired x y Sh) as P. destruct Sh as (Hx & Hy & Exy & F).
  destruct (same_key z x Hz Hx E) as (L1 & S1). destruct (same_key x y Hx Hy Exy) as (L2 & S2).
  destruct (only_twin _ _ _ P (event_range z Hz) S1) as [K|K]; [left|right]; apply left_inj; try assumption. congruence.
Qed.
Lemma shared_next : forall x y, shared x y -> exists l1 l2, events = l1 ++ x :: y :: l2 \/ events = l1 ++ y :: x :: l2.
Proof.
  intros x y Sh. pose proof Sh as (Hx & Hy & E & F). assert (N : x <> y) by (intros ->; congruence).
  pose proof events_sorted as S. pose proof events_nodup as D.
  assert (Gen : forall u v l1 m l3, (u = x /\ v = y \/ u = y /\ v = x) -> events = l1 ++ u :: m ++ v :: l3 -> m = []).
  { intros u v l1 m l3 Huv El. destruct m as [|z m]; [reflexivity|exfalso]. rewrite El in S, D.
    destruct (sorted_before _ _ _ _ _ _ _ S) as (_ & K). destruct (K z (or_introl eq_refl)) as (K1 & K2). apply seg_le in K1. apply seg_le in K2.
    assert (Ez : key z = key x).
    { destruct K1 as [K1|K1], K2 as [K2|K2].
      - exfalso. pose proof (seg_lt_trans _ _ _ K1 K2) as J. destruct Huv as [(-> & ->)|(-> & ->)]; rewrite E in J; exact (seg_lt_irrefl _ J).
      - destruct Huv as [(-> & ->)|(-> & ->)]; congruence.
      - destruct Huv as [(-> & ->)|(-> & ->)]; congruence.
      - destruct Huv as [(-> & ->)|(-> & ->)]; congruence. }
    assert (Hz : In z pl).
    { apply events_in. rewrite El. apply in_or_app. right. right. left. reflexivity. }
    assert (Q : z = u \/ z = v) by (destruct (shared_only x y z Sh Hz Ez), Huv as [(-> & ->)|(-> & ->)]; tauto).
    apply NoDup_remove in D. destruct D as (D & D'). destruct Q as [Q|Q].
    - apply D'. subst z. apply in_or_app. right. left. reflexivity.
    - subst z. apply nodup_app_r in D. cbn in D. apply NoDup_cons_iff in D. apply (proj1 D). apply in_or_app. right. left. reflexivity. }
  destruct (in_before _ events x y (proj2 (events_in x) Hx) (proj2 (events_in y) Hy) N) as [(l1 & m & l3 & El)|(l1 & m & l3 & El)].
  - pose proof (Gen x y l1 m l3 (or_introl (conj eq_refl eq_refl)) El) as ->. exists l1, l3. left. exact El.
  - pose proof (Gen y x l1 m l3 (or_intror (conj eq_refl eq_refl)) El) as ->. exists l1, l3. right. exact El.
Qed.

Notation groups := (group_by pt_eqb (ev_start s) events).
Lemma group_in : forall k g x, In (k, g) groups -> In x g -> In x pl /\ ev_start s x = k.
Proof.
  intros k g x Hg Hx. destruct (group_by_keys pt_eqb (ev_start s) pt_eqb_spec _ _ _ Hg) as (_ & K). destruct (K x Hx) as (K1 & K2).
  split; [apply events_in; exact K2|exact K1].
Qed.
Lemma group_all : forall k g x, In (k, g) groups -> In x pl -> ev_start s x = k -> In x g.
Proof.
  intros k g x Hg Hx E. apply (proj2 (group_by_contiguous pt_eqb (ev_start s) pt_eqb_spec _ events_contiguous) k g x Hg); [apply events_in; exact Hx|exact E].
Qed.
Lemma group_mixed : forall k g, In (k, g) groups ->
  (negb (all_equal (map (ev_first s) g)) = true <-> exists x y, In x g /\ In y g /\ ev_first s x <> ev_first s y).
Proof.
  intros k g _. rewrite negb_true_iff, all_equal_spec, !in_map_iff. split.
  - intros ((x & Ex & Hx) & (y & Ey & Hy)). exists x, y. repeat split; try assumption. congruence.
  - intros (x & y & Hx & Hy & N). destruct (ev_first s x) eqn:Ex, (ev_first s y) eqn:Ey; try congruence.
    + split; [exists x|exists y]; split; assumption.
    + split; [exists y|exists x]; split; assumption.
Qed.
(** A group has a pair of adjacent events of coinciding pieces iff it has such a pair of any events. *)
Lemma shared_group : forall k g x y, In (k, g) groups -> In x g -> In y g -> shared x y ->
  exists u v, In (u, v) (combine g (tl g)) /\ (u = x /\ v = y \/ u = y /\ v = x).
Proof.
  intros k g x y Hg Hx Hy Sh. destruct (shared_next x y Sh) as (l1 & l2 & El).
  assert (Gen : forall u v, In u g -> In v g -> events = l1 ++ u :: v :: l2 -> In (u, v) (combine g (tl g))).
  { intros u v Hu Hv E. assert (Ek : ev_start s u = ev_start s v) by (rewrite (proj2 (group_in k g u Hg Hu)), (proj2 (group_in k g v Hg Hv)); reflexivity).
    destruct (group_adjacent pt_eqb (ev_start s) pt_eqb_spec l1 u v l2 Ek) as (k' & g' & g1 & g2 & Hg' & Eg').
    rewrite <- E in Hg'. assert (Hu' : In u g') by (rewrite Eg'; apply in_or_app; right; left; reflexivity).
    assert (k' = k) by (rewrite <- (proj2 (group_in k' g' u Hg' Hu')); exact (proj2 (group_in k g u Hg Hu))). subst k'.
    assert (Egg : g' = g).
    { pose proof (proj1 (group_by_contiguous pt_eqb (ev_start s) pt_eqb_spec _ events_contiguous)) as D. clear - D Hg Hg'.
      induction groups as [|(a, c) t IH]; [destruct Hg|]. cbn in D. apply NoDup_cons_iff in D. destruct D as (D1 & D2).
      destruct Hg as [Hg|Hg], Hg' as [Hg'|Hg'].
      - congruence.
      - exfalso. injection Hg as -> ->. apply D1. apply in_map_iff. exists (k, g'). split; [reflexivity|exact Hg'].
      - exfalso. injection Hg' as -> ->. apply D1. apply in_map_iff. exists (k, g). split; [reflexivity|exact Hg].
      - exact (IH Hg Hg' D2). }
    apply in_combine_tl. exists g1, g2. rewrite <- Egg. exact Eg'. }
  destruct El as [El|El]; [exists x, y|exists y, x]; split; try (apply Gen; assumption); tauto.
Qed.
Lemma combine_in : forall (g : list event) u v, In (u, v) (combine g (tl g)) -> In u g /\ In v g.
Proof.
  intros g u v K. apply in_combine_tl in K. destruct K as (g1 & g2 & ->). split; apply in_or_app; right; [left|right; left]; reflexivity.
Qed.
Lemma no_shared_spec : forall k g, In (k, g) groups -> (no_shared_segment s g = true <-> forall x y, In x g -> In y g -> ~ shared x y).
Proof.
  intros k g Hg. unfold no_shared_segment. rewrite forallb_forall. split.
  - intros K x y Hx Hy Sh. destruct (shared_group k g x y Hg Hx Hy Sh) as (u & v & Huv & Q). pose proof (K (u, v) Huv) as J. cbn in J.
    apply negb_true_iff in J. change (sharedb u v = false) in J.
    assert (Sh' : shared u v).
    { destruct Q as [(-> & ->)|(-> & ->)]; [exact Sh|]. destruct Sh as (S1 & S2 & S3 & S4). unfold shared. repeat split; try assumption; congruence. }
    apply (sharedb_spec u v (proj1 Sh') (proj1 (proj2 Sh'))) in Sh'. congruence.
  - intros K (u, v) Huv. destruct (combine_in g u v Huv) as (Hu & Hv). apply negb_true_iff. change (sharedb u v = false).
    destruct (sharedb u v) eqn:E; [exfalso|reflexivity]. apply (K u v Hu Hv). apply sharedb_spec; [exact (proj1 (group_in k g u Hg Hu))|exact (proj1 (group_in k g v Hg Hv))|exact E].
Qed.

Notation parts := (complete_parts (s, pl)).
(** ** Shared segments *)
Lemma segments_in : forall k, In k (snd parts) <-> exists i j, paired s out i j /\ k = seg_of s i.
Proof.
  intro k. unfold complete_parts. cbn [snd]. rewrite in_flat_map. split.
  - intros ((p, g) & Hg & K). apply filter_In in Hg. destruct Hg as (Hg & _). cbn [snd] in K. unfold shared_endpoints in K.
    apply in_map_iff in K. destruct K as ((u, v) & Ek & K). apply filter_In in K. destruct K as (Huv & K).
    apply andb_true_iff in K. destruct K as (K1 & K2). change (sharedb u v = true) in K1. destruct (combine_in g u v Huv) as (Hu & Hv).
    apply sharedb_spec in K1; [|exact (proj1 (group_in p g u Hg Hu))|exact (proj1 (group_in p g v Hg Hv))].
    pose proof (shared_paired u v K1) as P. destruct u as [i|r]; [|discriminate K2]. exists i, (left_of s v). split; [exact P|]. symmetry. exact Ek.
  - intros (i & j & P & ->). pose proof P as (Hi & Hj & E & F).
    assert (Sh : shared (EL i) (EL j)) by (unfold shared; repeat split; try assumption; apply (pr_left _ _ _ _ Hp); assumption).
    destruct (group_by_cover pt_eqb (ev_start s) pt_eqb_spec events (EL i)) as (g & Hg & Hig); [apply events_in; exact (proj1 Sh)|].
    assert (Hjg : In (EL j) g).
    { apply (group_all _ g (EL j) Hg (proj1 (proj2 Sh))). symmetry. exact (f_equal s_start E). }
    exists (ev_start s (EL i), g). split.
    + apply filter_In. split; [exact Hg|]. cbn [snd]. apply (group_mixed _ g Hg). exists (EL i), (EL j). repeat split; assumption.
    + cbn [snd]. unfold shared_endpoints. apply in_map_iff. destruct (shared_group _ g _ _ Hg Hig Hjg Sh) as (u & v & Huv & Q).
      destruct (combine_in g u v Huv) as (Hu & Hv). exists (u, v). split.
      * destruct Q as [(-> & ->)|(-> & ->)]; [reflexivity|symmetry; exact E].
      * apply filter_In. split; [exact Huv|]. apply andb_true_iff. split; [|destruct Q as [(-> & _)|(-> & _)]; reflexivity].
        change (sharedb u v = true). apply sharedb_spec; [exact (proj1 (group_in _ g u Hg Hu))|exact (proj1 (group_in _ g v Hg Hv))|].
        destruct Q as [(-> & ->)|(-> & ->)]; [exact Sh|]. destruct Sh as (S1 & S2 & S3 & S4). unfold shared. repeat split; try assumption; congruence.
Qed.
Lemma segments_on : forall p, on_segments p (snd parts) <-> on_common_segment p first second.
Proof.
  intro p. split.
  - intros (k & Hk & Pk). apply segments_in in Hk. destruct Hk as (i & j & P & ->). exact (pair_common _ _ _ _ _ H i j p P Pk).
  - intros (s1 & s2 & H1 & H2 & O & P1 & P2). destruct (common_pair _ _ _ _ _ H b Hc s1 s2 p H1 H2 O P1 P2) as (i & j & P & Pi & _).
    exists (seg_of s i). split; [|exact Pi]. apply segments_in. exists i, j. split; [exact P|reflexivity].
Qed.

(** The left events giving shared segments, in order. *)
Notation test := (fun '(ev, next) => negb (Bool.eqb (ev_first s ev) (ev_first s next))
               && pt_eqb (ev_start s ev) (ev_start s next) && pt_eqb (ev_end s ev) (ev_end s next) && is_left ev).
Notation mixed := (filter (fun g => negb (all_equal (map (ev_first s) (snd g)))) groups).
Notation emitted := (flat_map (fun g : point * list event => map fst (filter test (combine (snd g) (tl (snd g))))) mixed).
Lemma parts_emitted : snd parts = map key emitted.
Proof.
  unfold complete_parts. cbn [snd]. induction mixed as [|g t IH]; [reflexivity|]. cbn [flat_map]. rewrite map_app, <- IH. f_equal.
  unfold shared_endpoints. rewrite map_map. apply map_ext. intros (u, v). reflexivity.
Qed.
Lemma emitted_sub : sublist emitted events.
Proof.
  rewrite <- (group_by_concat pt_eqb (ev_start s) events) at 2.
  apply (sublist_flat _ _ (fun g : point * list event => map fst (filter test (combine (snd g) (tl (snd g))))) snd
           (fun g => negb (all_equal (map (ev_first s) (snd g)))) groups).
  intro g. apply sublist_combine.
Qed.
Lemma emitted_next : forall x, In x emitted -> exists y l1 l2, shared x y /\ events = l1 ++ x :: y :: l2.
Proof.
  intros x K. apply in_flat_map in K. destruct K as ((p, g) & Hg & K). apply filter_In in Hg. destruct Hg as (Hg & _). cbn [snd] in K.
  apply in_map_iff in K. destruct K as ((u, v) & Eu & K). cbn in Eu. subst u. apply filter_In in K. destruct K as (Huv & K).
  apply andb_true_iff in K. destruct K as (K & _). change (sharedb x v = true) in K. destruct (combine_in g x v Huv) as (Hu & Hv).
  apply sharedb_spec in K; [|exact (proj1 (group_in p g x Hg Hu))|exact (proj1 (group_in p g v Hg Hv))].
  apply in_combine_tl in Huv. destruct Huv as (g1 & g2 & Eg). destruct (group_adjacent_inv pt_eqb (ev_start s) events p g g1 x v g2 Hg Eg) as (l1 & l2 & El).
  exists v, l1, l2. split; [exact K|exact El].
Qed.
Lemma emitted_distinct : forall x y, In x emitted -> In y emitted -> x <> y -> key x <> key y.
Proof.
  intros x y Hx Hy N E. destruct (emitted_next x Hx) as (u & l1 & l2 & Shx & Ex). destruct (emitted_next y Hy) as (v & m1 & m2 & Shy & Ey).
  pose proof Shx as (Px & Pu & _). pose proof Shy as (Py & Pv & _).
  destruct (shared_only x u y Shx Py (eq_sym E)) as [K|K]; [congruence|subst u].
  destruct (shared_only y v x Shy Px E) as [K|K]; [congruence|subst v].
  pose proof events_nodup as D. rewrite Ex in Ey, D.
  assert (Q : forall (u1 u2 w1 w2 : list event) a, u1 ++ a :: u2 = w1 ++ a :: w2 -> ~ In a (u1 ++ u2) -> u1 = w1 /\ u2 = w2).
  { clear. induction u1 as [|b u1 IH]; intros u2 [|c w1] w2 a Ex Hx; cbn in Ex.
    - injection Ex as ->. split; reflexivity.
    - injection Ex as -> ->. exfalso. apply Hx. cbn. apply in_or_app. right. left. reflexivity.
    - injection Ex as -> _. exfalso. apply Hx. left. reflexivity.
    - injection Ex as -> Ex. destruct (IH u2 w1 w2 a Ex) as (-> & ->); [intro J; apply Hx; right; exact J|]. split; reflexivity. }
  pose proof (NoDup_remove_2 _ _ _ D) as Dx.
  change (m1 ++ y :: x :: m2) with (m1 ++ [y] ++ x :: m2) in Ey. rewrite app_assoc in Ey. destruct (Q _ _ _ _ _ Ey Dx) as (E1 & _).
  subst l1. apply Dx. clear - D. exfalso. rewrite <- app_assoc in D. cbn in D. apply nodup_app_r in D. apply NoDup_cons_iff in D.
  apply (proj1 D). right. left. reflexivity.
Qed.
Lemma segments_arranged : arranged (snd parts).
Proof.
  split; [|split].
  - intros k Hk. apply segments_in in Hk. destruct Hk as (i & j & (Hi & _) & ->). exact (sw_plt _ _ _ _ H i (sw_range _ _ _ _ H i Hi)).
  - rewrite parts_emitted. pose proof (sublist_sorted _ _ _ _ emitted_sub events_sorted) as S. pose proof (sublist_nodup _ _ _ emitted_sub events_nodup) as D.
    pose proof emitted_distinct as N. induction emitted as [|x t IH]; [constructor|]. cbn. inversion S as [|? ? S1 S2]; subst. inversion D as [|? ? D1 D2]; subst.
    constructor; [apply IH; [exact S1|exact D2|intros u v Hu Hv; apply N; right; assumption]|].
    rewrite Forall_forall in *. intros k Hk. apply in_map_iff in Hk. destruct Hk as (y & <- & Hy). pose proof (S2 y Hy) as J. apply seg_le in J.
    destruct J as [J|J]; [exact J|exfalso]. apply (N x y); [left; reflexivity|right; exact Hy| |exact J]. intros ->. contradiction.
  - intros k k' Hk Hk' Nk p P P'. apply segments_in in Hk. apply segments_in in Hk'. destruct Hk as (i & j & (Hi & _) & ->), Hk' as (i' & j' & (Hi' & _) & ->).
    assert (Nii : i' <> i) by (intros ->; congruence).
    destruct (sw_apart _ _ _ _ H i i' Hi (sw_range _ _ _ _ H i' Hi') Nii) as [Q|(_ & Q & _)]; [exact (Q p P P')|congruence].
Qed.

(** ** Points *)
Lemma points_in : forall p, In p (fst parts) <-> on_segments p first /\ on_segments p second /\ ~ on_common_segment p first second.
Proof.
  intro p. unfold complete_parts. cbn [fst]. rewrite in_map_iff. split.
  - intros ((p', g) & E & K). cbn in E. subst p'. apply filter_In in K. destruct K as (K & K2). apply filter_In in K. destruct K as (Hg & K1). cbn [snd] in K1, K2.
    pose proof (proj1 (group_mixed p g Hg) K1) as (x & y & Hx & Hy & N). clear K1.
    assert (On : forall z, In z g -> on_segments p (if ev_first s z then first else second)).
    { intros z Hz. destruct (group_in p g z Hg Hz) as (Pz & Ez). destruct (piece_source _ _ _ _ _ H _ (event_range z Pz)) as (sg & Hsg & W).
      exists sg. split; [exact Hsg|]. apply W. rewrite <- Ez. destruct (event_endpoint z Pz) as [Q|Q]; rewrite Q; [apply on_segment_start|apply on_segment_end]. }
    assert (Both : on_segments p first /\ on_segments p second).
    { pose proof (On x Hx) as Ox. pose proof (On y Hy) as Oy. destruct (ev_first s x), (ev_first s y); try congruence; split; assumption. }
    split; [exact (proj1 Both)|]. split; [exact (proj2 Both)|]. intros (s1 & s2 & H1 & H2 & O & P1 & P2).
    destruct (common_pair _ _ _ _ _ H b Hc s1 s2 p H1 H2 O P1 P2) as (i & j & P & Pi & _). pose proof P as (Io & Jo & Eij & Fij).
    pose proof (sw_range _ _ _ _ H i Io) as Ri. pose proof (sw_range _ _ _ _ H j Jo) as Rj.
    destruct (group_in p g x Hg Hx) as (Px & Ex).
    assert (End : endpoint p (seg_of s i)).
    { pose proof (event_endpoint x Px) as Ek. rewrite Ex in Ek. destruct (Nat.eq_dec (left_of s x) i) as [Q|Q]; [rewrite <- Q; exact Ek|].
      destruct (sw_apart _ _ _ _ H i _ Io (event_range x Px) Q) as [A|(_ & A & _)]; [|rewrite A; exact Ek].
      apply (A p Pi). destruct Ek as [Ek|Ek]; rewrite Ek; [apply on_segment_start|apply on_segment_end]. }
    assert (Ev : exists u v, shared u v /\ ev_start s u = p).
    { destruct End as [Q|Q]; cbn in Q.
      - exists (EL i), (EL j). split; [|symmetry; exact Q]. unfold shared. repeat split; try (apply (pr_left _ _ _ _ Hp); assumption); assumption.
      - destruct (pr_wf _ _ _ _ Hp) as (_ & W & _). destruct (W i Ri) as (Wi1 & Wi2). destruct (W j Rj) as (Wj1 & Wj2).
        exists (ER (l_right (lft s i))), (ER (l_right (lft s j))). split; [|symmetry; exact Q]. unfold shared. split; [|split; [|split]].
        + apply (pr_out _ _ _ _ Hp _ Wi1). rewrite Wi2. exact Io.
        + apply (pr_out _ _ _ _ Hp _ Wj1). rewrite Wj2. exact Jo.
        + rewrite (right_key _ Wi1), (right_key _ Wj1), Wi2, Wj2.
          pose proof (f_equal s_start Eij) as Ea. pose proof (f_equal s_end Eij) as Eb. cbn in Ea, Eb. rewrite Ea, Eb. reflexivity.
        + unfold ev_first. cbn [left_of]. rewrite Wi2, Wj2. exact Fij. }
    destruct Ev as (u & v & Sh & Eu). pose proof Sh as (Pu & Pv & Euv & _).
    apply (proj1 (no_shared_spec p g Hg) K2 u v); [exact (group_all p g u Hg Pu Eu)| |exact Sh].
    apply (group_all p g v Hg Pv). rewrite <- Eu. symmetry. exact (f_equal s_start Euv).
  - intros (O1 & O2 & Nc).
    assert (S : exists sb so, In sb (if b then first else second) /\ In so (if negb b then first else second) /\ on_segment p sb /\ on_segment p so).
    { destruct O1 as (s1 & A1 & A2), O2 as (s2 & B1 & B2). destruct b; [exists s1, s2|exists s2, s1]; repeat split; assumption. }
    destruct S as (sb & so & S1 & S2 & S3 & S4).
    destruct (piece_at _ _ _ _ _ H b sb p S1 S3) as (i & Ri & Fi & Pi & _). destruct (piece_at _ _ _ _ _ H (negb b) so p S2 S4) as (j & Rj & Fj & Pj & _).
    pose proof (covered _ _ _ _ _ H b i Hc Ri Fi) as Io. assert (Nij : j <> i) by (intros ->; rewrite Fi in Fj; revert Fj; case b; discriminate).
    assert (Ends : endpoint p (seg_of s i) /\ endpoint p (seg_of s j)).
    { destruct (sw_apart _ _ _ _ H i j Io Rj Nij) as [Q|(Jo & Eij & Fij & _)]; [exact (Q p Pi Pj)|exfalso].
      apply Nc. apply (pair_common _ _ _ _ _ H i j p); [unfold paired; repeat split; assumption|exact Pi]. }
    assert (Ev : forall k, (k < n)%nat -> endpoint p (seg_of s k) -> exists x, In x pl /\ ev_start s x = p /\ left_of s x = k).
    { intros k Rk Ek. destruct (pr_wf _ _ _ _ Hp) as (_ & W & _). destruct (W k Rk) as (W1 & W2).
      assert (Near : forall ev, in_range s ev -> ev_start s ev = p -> In ev pl).
      { intros ev Rev Eev. assert (Dec : forall a c : event, {a = c} + {a <> c}) by (decide equality; apply Nat.eq_dec).
        destruct (in_dec Dec ev pl) as [Q|Q]; [exact Q|exfalso]. destruct (pr_rest _ _ _ _ Hp ev Rev Q) as (x & Ex & Hx).
        rewrite Eev in Hx. pose proof (Hc x Ex sb p S1 S3). qlra. }
      destruct Ek as [Ek|Ek]; cbn in Ek.
      - exists (EL k). split; [apply Near; [exact Rk|symmetry; exact Ek]|]. split; [symmetry; exact Ek|reflexivity].
      - exists (ER (l_right (lft s k))). split; [apply Near; [exact W1|symmetry; exact Ek]|]. split; [symmetry; exact Ek|exact W2]. }
    destruct (Ev i Ri (proj1 Ends)) as (x & Px & Ex & Lx). destruct (Ev j Rj (proj2 Ends)) as (y & Py & Ey & Ly).
    destruct (group_by_cover pt_eqb (ev_start s) pt_eqb_spec events x) as (g & Hg & Hxg); [apply events_in; exact Px|].
    rewrite Ex in Hg. pose proof (group_all p g y Hg Py Ey) as Hyg. exists (p, g). split; [reflexivity|]. apply filter_In. split.
    + apply filter_In. split; [exact Hg|]. apply (group_mixed p g Hg). exists x, y. repeat split; try assumption.
      unfold ev_first. rewrite Lx, Ly, Fi, Fj. destruct b; discriminate.
    + apply (no_shared_spec p g Hg). intros u v Hu Hv Sh. pose proof (shared_paired u v Sh) as P. destruct (group_in p g u Hg Hu) as (Pu & Eu).
      apply Nc. apply (pair_common _ _ _ _ _ H _ _ p P). rewrite <- Eu. destruct (event_endpoint u Pu) as [Q|Q]; rewrite Q; [apply on_segment_start|apply on_segment_end].
Qed.
Lemma points_sorted : StronglySorted plt (fst parts).
Proof.
  unfold complete_parts. cbn [fst].
  assert (S : StronglySorted plt (map fst groups)).
  { pose proof (proj1 (group_by_contiguous pt_eqb (ev_start s) pt_eqb_spec _ events_contiguous)) as D. pose proof events_sorted as S.
    pose proof (group_by_concat pt_eqb (ev_start s) events) as C. rewrite <- C in S. clear C.
    assert (K : forall k g, In (k, g) groups -> exists x, In x g /\ ev_start s x = k).
    { intros k g Hg. destruct (group_by_keys pt_eqb (ev_start s) pt_eqb_spec _ _ _ Hg) as (N & K). destruct g as [|x g]; [congruence|].
      exists x. split; [left; reflexivity|]. exact (proj1 (K x (or_introl eq_refl))). }
    induction groups as [|(k, g) t IH]; [constructor|]. cbn in D, S |- *. apply NoDup_cons_iff in D. destruct D as (D1 & D2). constructor.
    - apply IH; [exact D2| |intros k' g' Hg; apply (K k' g'); right; exact Hg]. clear - S. induction g as [|x g IH]; [exact S|]. cbn in S. inversion S; subst. auto.
    - apply Forall_forall. intros k' Hk'. apply in_map_iff in Hk'. destruct Hk' as ((k0, g') & E & Hg'). cbn in E. subst k0.
      destruct (K k g (or_introl eq_refl)) as (x & Hx & Ex). destruct (K k' g' (or_intror Hg')) as (y & Hy & Ey).
      assert (L : seg_ltb (key y) (key x) = false).
      { apply in_split in Hx. destruct Hx as (a & c & ->).
        assert (Hy' : In y (concat (map snd t))) by (apply in_concat; exists g'; split; [apply in_map_iff; exists (k', g'); split; [reflexivity|exact Hg']|exact Hy]).
        apply in_split in Hy'. destruct Hy' as (u & v & E). rewrite E in S. rewrite <- app_assoc in S. cbn in S.
        rewrite app_assoc in S. exact (proj1 (sorted_before _ _ _ _ _ _ _ S)). }
      apply starts_le in L. rewrite Ex, Ey in L. apply ple_lt_eq in L. destruct L as [L|L]; [exact L|exfalso].
      apply D1. apply in_map_iff. exists (k', g'). split; [symmetry; exact L|exact Hg']. }
  apply (sublist_sorted _ _ _ (map fst groups)); [|exact S]. apply sublist_map.
  apply (sublist_trans _ _ mixed); apply sublist_filter.
Qed.
End Complete.

Lemma on_segments_dec : forall p ss, on_segments p ss \/ ~ on_segments p ss.
Proof.
  intros p ss. induction ss as [|s ss IH]; [right; intros (s & [] & _)|].
  destruct (on_segment_dec p s) as [K|K]; [left; exists s; split; [left; reflexivity|exact K]|].
  destruct IH as [(t & Ht & Pt)|IH]; [left; exists t; split; [right; exact Ht|exact Pt]|right].
  intros (t & [<-|Ht] & Pt); [exact (K Pt)|apply IH; exists t; split; assumption].
Qed.

(** ** Filtering *)
Lemma intersecting_kept : forall others box ss s t p, segments_box others = Some box -> non_overlapping ss -> In s ss -> In t others ->
  on_segment p s -> on_segment p t -> In s (to_intersecting_segments box ss).
Proof.
  intros others box ss s t p Eb (P & _) Hs Ht Ps Pt. apply filter_In. split; [exact Hs|]. apply segments_box_in in Eb. rewrite Forall_forall in P.
  apply intersects_with_segment_points; [exact (proj1 Eb)|exact (P s Hs)|]. exists p. split; [exact (proj2 Eb t p Ht Pt)|exact Ps].
Qed.
Lemma exact_empty : forall first second, (forall p, ~ (on_segments p first /\ on_segments p second)) -> exact_intersection GEmpty first second.
Proof.
  intros first second N. split; [reflexivity|]. split; [constructor|]. split; [|split].
  - intro p. split; [intros [[]|(s & [] & _)]|intro K; exfalso; exact (N p K)].
  - intro p. split; [intros (s & [] & _)|]. intros (s1 & s2 & H1 & H2 & _ & P1 & P2). exfalso. apply (N p). split; [exists s1|exists s2]; split; assumption.
  - intros p [].
Qed.

Theorem complete_intersection_correct : forall first second, non_overlapping first -> non_overlapping second -> first <> [] -> second <> [] ->
  exists g, (forall o, linear_complete_intersection o first second = Ok g)
  /\ exact_intersection g first second /\ canonical g /\ arranged (segments_of g) /\ StronglySorted plt (points_of g).
Proof.
  intros first second N1 N2 E1 E2. destruct (segments_box_some first E1) as (a & Ea). destruct (segments_box_some second E2) as (b & Eb).
  assert (Emp : (forall p, ~ (on_segments p first /\ on_segments p second)) -> (forall o, linear_complete_intersection o first second = Ok GEmpty) ->
    exists g, (forall o, linear_complete_intersection o first second = Ok g)
    /\ exact_intersection g first second /\ canonical g /\ arranged (segments_of g) /\ StronglySorted plt (points_of g)).
  { intros Q R. exists GEmpty. split; [exact R|]. split; [exact (exact_empty _ _ Q)|]. split; [exact I|]. split; [exact empty_arranged|constructor]. }
  destruct (disjoint_with a b) eqn:D.
  { apply Emp.
    - intros p (K1 & K2). exact (disjoint_boxes first second a b p Ea Eb D K1 K2).
    - intro o. unfold linear_complete_intersection, with_boxes. rewrite Ea, Eb, D. reflexivity. }
  assert (F1 : forall s t p, In s first -> In t second -> on_segment p s -> on_segment p t -> In s (to_intersecting_segments b first)).
  { intros s t p Hs Ht Ps Pt. exact (intersecting_kept second b first s t p Eb N1 Hs Ht Ps Pt). }
  assert (F2 : forall s t p, In s first -> In t second -> on_segment p s -> on_segment p t -> In t (to_intersecting_segments a second)).
  { intros s t p Hs Ht Ps Pt. exact (intersecting_kept first a second t s p Ea N2 Ht Hs Pt Ps). }
  assert (I1 : forall s, In s (to_intersecting_segments b first) -> In s first) by (intros s K; apply filter_In in K; exact (proj1 K)).
  assert (I2 : forall s, In s (to_intersecting_segments a second) -> In s second) by (intros s K; apply filter_In in K; exact (proj1 K)).
  pose proof (non_overlapping_filter (intersects_with_segment b) first N1) as N1'. pose proof (non_overlapping_filter (intersects_with_segment a) second N2) as N2'.
  fold (to_intersecting_segments b first) in N1'. fold (to_intersecting_segments a second) in N2'.
  destruct (to_intersecting_segments b first) as [|f fs] eqn:Ef.
  { apply Emp.
    - intros p ((s & Hs & Ps) & (t & Ht & Pt)). exact (F1 s t p Hs Ht Ps Pt).
    - intro o. unfold linear_complete_intersection, with_boxes. rewrite Ea, Eb, D, Ef. reflexivity. }
  destruct (to_intersecting_segments a second) as [|t0 ts] eqn:Et.
  { apply Emp.
    - intros p ((s & Hs & Ps) & (t & Ht & Pt)). exact (F2 s t p Hs Ht Ps Pt).
    - intro o. unfold linear_complete_intersection, with_boxes. rewrite Ea, Eb, D, Ef, Et. reflexivity. }
  destruct (linear_sweep (f :: fs) (t0 :: ts) (x_max_min (segments_x_max (f :: fs)) (segments_x_max (t0 :: ts))) (lawful_operands _ _ N1' N2'))
    as (s & out & pl & H & Hp & _ & Hs).
  destruct (min_covers (f :: fs) (t0 :: ts)) as (c & Cv).
  pose proof (segments_on _ _ _ _ _ _ H Hp c Cv) as On. pose proof (points_in _ _ _ _ _ _ H Hp c Cv) as Pin.
  pose proof (segments_arranged _ _ _ _ _ _ H Hp c Cv) as Ar. pose proof (points_sorted s pl) as So.
  destruct (unpack_linear_mix_canonical (fst (complete_parts (s, pl))) (snd (complete_parts (s, pl)))) as (C1 & C2 & C3 & C4).
  assert (Common : forall p, on_common_segment p (f :: fs) (t0 :: ts) <-> on_common_segment p first second).
  { intro p. split; intros (s1 & s2 & H1 & H2 & O & P1 & P2); exists s1, s2; repeat split; try assumption; [exact (I1 _ H1)|exact (I2 _ H2)| |].
    - exact (F1 s1 s2 p H1 H2 P1 P2).
    - exact (F2 s1 s2 p H1 H2 P1 P2). }
  assert (Both : forall p, on_segments p (f :: fs) /\ on_segments p (t0 :: ts) <-> on_segments p first /\ on_segments p second).
  { intro p. split; intros ((s1 & H1 & P1) & (s2 & H2 & P2)).
    - split; [exists s1; split; [exact (I1 _ H1)|exact P1]|exists s2; split; [exact (I2 _ H2)|exact P2]].
    - split; [exists s1; split; [exact (F1 s1 s2 p H1 H2 P1 P2)|exact P1]|exists s2; split; [exact (F2 s1 s2 p H1 H2 P1 P2)|exact P2]]. }
  exists (unpack_linear_mix (unpack_points (fst (complete_parts (s, pl)))) (unpack_segments (snd (complete_parts (s, pl))))). split.
  { intro o. unfold linear_complete_intersection, with_boxes. rewrite Ea, Eb, D, Ef, Et, (Hs o). cbn [bind_res].
    destruct (complete_parts (s, pl)). reflexivity. }
  split; [|split; [exact C1|split; [rewrite C3; exact Ar|rewrite C2; exact So]]].
  split; [exact C4|]. split; [rewrite C3; exact (proj1 (arranged_valid _ Ar))|]. split; [|split].
  - intro p. rewrite <- Both. unfold in_geometry. rewrite C2, C3. split.
    + intros [K|K]; [apply Pin in K; split; tauto|]. apply On in K. destruct K as (s1 & s2 & H1 & H2 & _ & P1 & P2).
      split; [exists s1|exists s2]; split; assumption.
    + intros (K1 & K2). destruct (on_segments_dec p (snd (complete_parts (s, pl)))) as [K|K]; [right; exact K|left].
      apply Pin. split; [exact K1|]. split; [exact K2|]. intro J. apply K. apply On. exact J.
  - intro p. rewrite C3. rewrite On. exact (Common p).
  - intros p K. rewrite C2 in K. apply Pin in K. destruct K as (_ & _ & K). intro J. apply K. apply Common. exact J.
Qed.
