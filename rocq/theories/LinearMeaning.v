(** Meaning of the groups selected by the operations of linear.py in terms of
    points of the operands.  Proof support only, no part of /repo is modelled
    here. *)
From Coq Require Import Permutation Sorted.
From Verif Require Import QcTac Geom Spec GeomFacts SortFacts PairFacts Bounding Toward BoundingThms SweepInv SweepSteps Sweep SweepCmp Linear SweepLoop SweepStart SweepEnd SelectThms.

Section Meaning.
Variables (first second : list segment) (x_max : option Qc) (s : state) (out : list nat).
Hypothesis H : swept (tag first second) x_max s out.
Notation operand b := (if b : bool then first else second).
Notation side i := (l_first (lft s i)).

Lemma tag_in : forall k b sg, nth_error (tag first second) k = Some (b, sg) -> In sg (operand b).
Proof.
  intros k b sg K. apply nth_tag in K. destruct K as [(-> & K)|(-> & _ & K)]; apply nth_error_In in K; exact K.
Qed.
Lemma in_tagged : forall b sg, In sg (operand b) -> exists k, nth_error (tag first second) k = Some (b, sg).
Proof.
  intros b sg K. apply In_nth_error. unfold tag. apply in_or_app. destruct b; [left|right]; apply in_map; exact K.
Qed.
Lemma piece_source : forall i, (i < length (lefts s))%nat -> exists sg, In sg (operand (side i)) /\ within (seg_of s i) sg.
Proof.
  intros i Hi. destruct (sw_src _ _ _ _ H) as (src & K & _). destruct (K i Hi) as (sg & E & _ & W).
  exists sg. split; [exact (tag_in _ _ _ E)|exact W].
Qed.
Lemma piece_at : forall b sg p, In sg (operand b) -> on_segment p sg ->
  exists i, (i < length (lefts s))%nat /\ side i = b /\ on_segment p (seg_of s i) /\ within (seg_of s i) sg.
Proof.
  intros b sg p Hs Hp. destruct (in_tagged b sg Hs) as (k & E). destruct (sw_src _ _ _ _ H) as (src & K1 & K2).
  destruct (K2 k b sg p E Hp) as (i & Hi & Ei & Hpi). exists i. split; [exact Hi|].
  destruct (K1 i Hi) as (sg' & E' & _ & W). rewrite Ei, E in E'. injection E' as Eb Es. subst sg'. split; [congruence|]. split; assumption.
Qed.

Definition covers (b : bool) : Prop := forall x, x_max = Some x -> forall sg p, In sg (operand b) -> on_segment p sg -> px p <= x.
Lemma covered : forall b i, covers b -> (i < length (lefts s))%nat -> side i = b -> In i out.
Proof.
  intros b i Hc Hi Eb. destruct (in_dec Nat.eq_dec i out) as [K|K]; [exact K|exfalso].
  destruct (sw_rest _ _ _ _ H i Hi K) as (x & Ex & Hx). destruct (piece_source i Hi) as (sg & Hs & W). rewrite Eb in Hs.
  pose proof (Hc x Ex sg (end_of s i) Hs (W _ (on_segment_end (seg_of s i)))). qlra.
Qed.

Lemma lone_or_paired : forall i, In i out -> alone s out i \/ exists j, paired s out i j.
Proof.
  intros i Hi. destruct (group_by_cover seg_eqb (ev_segment s) seg_eqb_spec (map EL out) (EL i)) as (g & Hg & Hig); [apply in_map; exact Hi|].
  destruct (group_shape _ _ _ _ H _ g Hg) as [(a & Ha & Ea & Eg & Hal)|(a & b & Hp & Ea & Eg)]; subst g.
  - destruct Hig as [E|[]]. injection E as ->. left. exact Hal.
  - pose proof Hp as (Pa & Pb & Pe & Pf). right. destruct Hig as [E|[E|[]]]; injection E as ->.
    + exists b. exact Hp.
    + exists a. unfold paired. repeat split; congruence.
Qed.
Lemma alone_not_paired : forall i j, alone s out i -> ~ paired s out i j.
Proof. intros i j K (_ & J & E & F). apply (K j J); [intros ->; congruence|congruence]. Qed.

Lemma alone_no_overlap : forall i sg, In i out -> alone s out i -> In sg (operand (negb (side i))) -> ~ overlap (seg_of s i) sg.
Proof.
  intros i sg Hi Ha Hs O. destruct (overlap_inside _ _ O) as (m & (M1 & N1 & N2) & (M2 & _)).
  destruct (piece_at (negb (side i)) sg m Hs M2) as (j & Hj & Ej & Mj & _).
  assert (Hij : j <> i) by (intros ->; destruct (side i); discriminate Ej).
  destruct (piece_twin _ _ _ _ H i j m Hi Hj Hij M1 Mj) as (J1 & J2 & J3 & _).
  - intros ([K|K] & _); [exact (N1 K)|exact (N2 K)].
  - apply (Ha j J1 Hij). symmetry. exact J2.
Qed.

Notation events := (map EL out).
Notation result test := (select test (s, events)).
Definition shown (test : list bool -> bool) (i : nat) : Prop :=
  (alone s out i /\ test [side i] = true) \/ ((exists j, paired s out i j) /\ test [true; false] = true).
Lemma result_on : forall test, test [true; false] = test [false; true] -> forall p, on_segments p (result test) <->
  exists i, In i out /\ on_segment p (seg_of s i) /\ shown test i.
Proof.
  intros test Ht p. split.
  - intros (k & Hk & Hp). apply (select_in _ _ _ _ H test Ht) in Hk. destruct Hk as (i & Hi & -> & K). exists i. split; [exact Hi|]. split; [exact Hp|exact K].
  - intros (i & Hi & Hp & K). exists (seg_of s i). split; [|exact Hp]. apply (select_in _ _ _ _ H test Ht). exists i. split; [exact Hi|]. split; [reflexivity|exact K].
Qed.
Lemma result_sound : forall test, test [true; false] = test [false; true] -> forall k, In k (result test) ->
  exists i, In i out /\ k = seg_of s i /\ shown test i.
Proof. intros test Ht k. apply (select_in _ _ _ _ H test Ht). Qed.

Lemma result_arranged : forall test, test [true; false] = test [false; true] -> arranged (result test).
Proof.
  intros test Ht. split; [|split].
  - exact (select_plt _ _ _ _ H test Ht).
  - exact (select_sorted _ _ _ _ H test).
  - exact (select_apart _ _ _ _ H test Ht).
Qed.
Lemma result_proper : forall test, test [true; false] = test [false; true] -> Forall proper (result test).
Proof.
  intros test Ht. apply Forall_forall. intros k Hk E. pose proof (select_plt _ _ _ _ H test Ht k Hk) as K.
  rewrite E in K. exact (plt_irrefl _ K).
Qed.

Lemma shown_source : forall test, test [true; false] = test [false; true] -> forall p, on_segments p (result test) ->
  on_segments p first \/ on_segments p second.
Proof.
  intros test Ht p Hp. apply (result_on test Ht) in Hp. destruct Hp as (i & Hi & Hp & _).
  destruct (piece_source i (sw_range _ _ _ _ H i Hi)) as (sg & Hs & W). destruct (side i); [left|right]; exists sg; split; auto.
Qed.

(** ** Union *)
Lemma union_points : x_max = None -> forall p, on_segments p (result (fun _ => true)) <-> on_segments p first \/ on_segments p second.
Proof.
  intros Ex p. split; [exact (shown_source (fun _ => true) eq_refl p)|]. intro K.
  assert (Q : exists b sg, In sg (operand b) /\ on_segment p sg).
  { destruct K as [(sg & K)|(sg & K)]; [exists true, sg|exists false, sg]; exact K. }
  destruct Q as (b & sg & Q1 & Q2). destruct (piece_at b sg p Q1 Q2) as (i & Hi & Eb & Hp & _).
  assert (Io : In i out).
  { apply (covered b); [|exact Hi|exact Eb]. intros x E. congruence. }
  apply (result_on (fun _ => true) eq_refl). exists i. split; [exact Io|]. split; [exact Hp|].
  destruct (lone_or_paired i Io) as [L|L]; [left|right]; split; auto.
Qed.

(** ** Differences *)
Lemma operand_kept : forall b sg p, covers b -> In sg (operand b) -> on_segment p sg -> ~ on_segments p (operand (negb b)) ->
  exists i, In i out /\ side i = b /\ on_segment p (seg_of s i) /\ alone s out i.
Proof.
  intros b sg p Hc Hs Hp Hn. destruct (piece_at b sg p Hs Hp) as (i & Hi & Eb & Hpi & _).
  pose proof (covered b i Hc Hi Eb) as Io. exists i. split; [exact Io|]. split; [exact Eb|]. split; [exact Hpi|].
  destruct (lone_or_paired i Io) as [L|(j & L)]; [exact L|exfalso].
  destruct L as (_ & Jo & E & F). destruct (piece_source j (sw_range _ _ _ _ H j Jo)) as (t & Ht & W).
  apply Hn. exists t. split; [|apply W; rewrite <- E; exact Hpi].
  replace (negb b) with (side j); [exact Ht|]. rewrite <- Eb. revert F. destruct (side i), (side j); intro F; try reflexivity; congruence.
Qed.
Lemma symmetric_points : x_max = None ->
  (forall p, (on_segments p first /\ ~ on_segments p second \/ on_segments p second /\ ~ on_segments p first) -> on_segments p (result all_equal))
  /\ (forall k s1 s2 p q, In k (result all_equal) -> In s1 first -> In s2 second -> p <> q ->
        ~ (on_segment p k /\ on_segment p s1 /\ on_segment p s2 /\ on_segment q k /\ on_segment q s1 /\ on_segment q s2)).
Proof.
  intro Ex. assert (Hc : forall b, covers b) by (intros b x E; congruence). split.
  - intros p K. apply (result_on all_equal eq_refl).
    assert (Q : exists b sg, In sg (operand b) /\ on_segment p sg /\ ~ on_segments p (operand (negb b))).
    { destruct K as [((sg & K1 & K2) & K3)|((sg & K1 & K2) & K3)]; [exists true, sg|exists false, sg]; repeat split; assumption. }
    destruct Q as (b & sg & Q1 & Q2 & Q3). destruct (operand_kept b sg p (Hc b) Q1 Q2 Q3) as (i & Hi & Eb & Hp & Ha).
    exists i. split; [exact Hi|]. split; [exact Hp|]. left. split; [exact Ha|reflexivity].
  - intros k s1 s2 p q Hk H1 H2 Hn (P0 & P1 & P2 & Q0 & Q1 & Q2). apply (result_sound all_equal eq_refl) in Hk.
    destruct Hk as (i & Hi & -> & [(Ha & _)|(_ & K)]); [|discriminate K].
    destruct (side i) eqn:E.
    + apply (alone_no_overlap i s2 Hi Ha); [rewrite E; exact H2|]. exists p, q. repeat split; assumption.
    + apply (alone_no_overlap i s1 Hi Ha); [rewrite E; exact H1|]. exists p, q. repeat split; assumption.
Qed.
Lemma difference_points : covers true ->
  (forall p, on_segments p first -> ~ on_segments p second -> on_segments p (result forall_first))
  /\ (forall p, on_segments p (result forall_first) -> on_segments p first)
  /\ (forall k t, In k (result forall_first) -> In t second -> ~ overlap k t).
Proof.
  intro Hc. split; [|split].
  - intros p (sg & K1 & K2) K3. destruct (operand_kept true sg p Hc K1 K2 K3) as (i & Hi & Eb & Hp & Ha).
    apply (result_on forall_first eq_refl). exists i. split; [exact Hi|]. split; [exact Hp|]. left. rewrite Eb. split; [exact Ha|reflexivity].
  - intros p Hp. apply (result_on forall_first eq_refl) in Hp. destruct Hp as (i & Hi & Hp & [(_ & K)|(_ & K)]); [|discriminate K].
    destruct (piece_source i (sw_range _ _ _ _ H i Hi)) as (sg & Hs & W). cbn in K. destruct (side i); [|discriminate K].
    exists sg. split; [exact Hs|exact (W p Hp)].
  - intros k t Hk Ht. apply (result_sound forall_first eq_refl) in Hk. destruct Hk as (i & Hi & -> & [(Ha & K)|(_ & K)]); [|discriminate K].
    cbn in K. apply (alone_no_overlap i t Hi Ha). destruct (side i); [exact Ht|discriminate K].
Qed.

(** ** Intersection *)
Notation mixed := (fun l => negb (all_equal l)).
(** Next to any point of a common sub-segment there is a pair of coinciding pieces. *)
Lemma common_pair : forall b, covers b -> forall s1 s2 p, In s1 first -> In s2 second -> overlap s1 s2 -> on_segment p s1 -> on_segment p s2 ->
  exists i j, paired s out i j /\ on_segment p (seg_of s i) /\ side i = b.
Proof.
  intros b Hc s1 s2 p H1 H2 (u & v & Huv & U1 & U2 & V1 & V2) P1 P2.
  assert (Q : exists q, p <> q /\ on_segment q s1 /\ on_segment q s2).
  { destruct (pt_eqb_spec p u) as [E|E]; [subst u; exists v|exists u]; repeat split; assumption. }
  destruct Q as (q & Hpq & Q1 & Q2).
  set (vs := flat_map (fun i => [l_start (lft s i); end_of s i]) (seq 0 (length (lefts s)))).
  assert (Hvs : forall i, (i < length (lefts s))%nat -> In (l_start (lft s i)) vs /\ In (end_of s i) vs).
  { intros i Hi. split; apply in_flat_map; exists i; (split; [apply in_seq; lia|]); [left|right; left]; reflexivity. }
  destruct (approach p q vs Hpq) as (m & Hm & Nm & Am).
  pose proof (on_convex s1 p q m P1 Q1 (proj1 Hm)) as M1. pose proof (on_convex s2 p q m P2 Q2 (proj1 Hm)) as M2.
  assert (S : exists sb so, In sb (operand b) /\ In so (operand (negb b)) /\ on_segment p sb /\ on_segment q sb
    /\ on_segment m sb /\ on_segment m so).
  { destruct b; [exists s1, s2|exists s2, s1]; repeat split; assumption. }
  destruct S as (sb & so & S1 & S2 & S3 & S4 & S5 & S6).
  destruct (piece_at b sb m S1 S5) as (i & Hi & Ei & Mi & Wi). destruct (piece_at (negb b) so m S2 S6) as (j & Hj & Ej & Mj & _).
  assert (Hij : j <> i) by (intros ->; rewrite Ei in Ej; destruct b; discriminate Ej).
  pose proof (covered b i Hc Hi Ei) as Io.
  destruct (piece_twin _ _ _ _ H i j m Io Hj Hij Mi Mj) as (J1 & J2 & J3 & _).
  - intros ([K|K] & _); apply Nm; rewrite K; apply (Hvs i Hi).
  - exists i, j. split; [unfold paired; repeat split; assumption|]. split; [|exact Ei].
    apply (Am sb _ _ (proj1 (Hvs i Hi)) (proj2 (Hvs i Hi)) S3 S4); [| |exact Mi].
    + apply Wi. exact (on_segment_start (seg_of s i)).
    + apply Wi. exact (on_segment_end (seg_of s i)).
Qed.
Lemma pair_common : forall i j p, paired s out i j -> on_segment p (seg_of s i) -> on_common_segment p first second.
Proof.
  intros i j p (Hi & Hj & E & F) Hp.
  pose proof (sw_range _ _ _ _ H i Hi) as Ri. pose proof (sw_range _ _ _ _ H j Hj) as Rj.
  destruct (piece_source i Ri) as (a & Ha & Wa). destruct (piece_source j Rj) as (c & Hcc & Wc).
  assert (O : overlap a c).
  { exists (l_start (lft s i)), (end_of s i). split; [intro K; apply (piece_proper _ _ _ _ H i Ri); exact K|].
    pose proof (on_segment_start (seg_of s i)) as S1. pose proof (on_segment_end (seg_of s i)) as S2.
    assert (S1' : on_segment (l_start (lft s i)) (seg_of s j)) by (rewrite <- E; exact S1).
    assert (S2' : on_segment (end_of s i) (seg_of s j)) by (rewrite <- E; exact S2).
    split; [exact (Wa _ S1)|]. split; [exact (Wc _ S1')|]. split; [exact (Wa _ S2)|exact (Wc _ S2')]. }
  assert (Pa : on_segment p a) by (apply Wa; exact Hp). assert (Pc : on_segment p c) by (apply Wc; rewrite <- E; exact Hp).
  revert F Ha Hcc. destruct (side i), (side j); intros F Ha Hcc; try congruence.
  - exists a, c. repeat split; assumption.
  - exists c, a. repeat split; try assumption. apply overlap_sym. exact O.
Qed.
Lemma intersection_points : covers true \/ covers false ->
  forall p, on_segments p (result mixed) <-> on_common_segment p first second.
Proof.
  intros Hc p. split.
  - intro Hp. apply (result_on mixed eq_refl) in Hp. destruct Hp as (i & Hi & Hp & [(_ & K)|((j & K) & _)]); [discriminate K|].
    exact (pair_common i j p K Hp).
  - intros (s1 & s2 & H1 & H2 & O & P1 & P2).
    assert (Q : exists i j, paired s out i j /\ on_segment p (seg_of s i)).
    { destruct Hc as [Hc|Hc]; destruct (common_pair _ Hc s1 s2 p H1 H2 O P1 P2) as (i & j & K1 & K2 & _); exists i, j; split; assumption. }
    destruct Q as (i & j & K1 & K2). apply (result_on mixed eq_refl). exists i. split; [exact (proj1 K1)|]. split; [exact K2|].
    right. split; [exists j; exact K1|reflexivity].
Qed.
End Meaning.
