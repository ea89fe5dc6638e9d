(** Merging of segments (linear.py 42-75): the n-ary sweep over segments
    without overlaps goes as the binary one with an empty first operand. *)
From Coq Require Import Permutation Sorted.
From Verif Require Import QcTac Geom Spec GeomFacts Relation SortFacts PairFacts PairProofs Pair Toward UnpackThms SweepGeo SweepInv SweepSteps Sweep SweepCmp SweepLink Linear SweepRun SweepLoop SweepStart SweepEnd SelectThms LinearMeaning LinearThms.

(** No event comes from the first operand. *)
Definition seconds (s : state) : Prop := forall i, l_first (lft s i) = false.

Lemma seconds_same : forall s s', lefts s' = lefts s -> seconds s -> seconds s'.
Proof. intros s s' E H i. unfold lft. rewrite E. exact (H i). Qed.
Lemma seconds_divs : forall s s', divs s s' -> wf s -> seconds s -> seconds s'.
Proof.
  intros s s' Hd Hw H. destruct (divs_sourced s s' Hd Hw) as (src & K & _).
  intro i. destruct (Nat.lt_ge_cases i (length (lefts s'))) as [L|L].
  - destruct (K i L) as (_ & E & _). rewrite E. apply H.
  - unfold lft. rewrite nth_overflow by exact L. reflexivity.
Qed.

Lemma key_same : forall s, seconds s -> forall a b, nary_key_ltb s a b = binary_key_ltb s a b.
Proof.
  intros s H a b. unfold nary_key_ltb, binary_key_ltb. destruct (negb _); [reflexivity|]. destruct (negb _); [reflexivity|]. destruct (negb _); [reflexivity|].
  unfold ev_first. rewrite H. destruct (orient _ _ _); destruct (is_left a); reflexivity.
Qed.
Lemma line_same : forall s, seconds s -> forall a b, nary_line_ltb s a b = binary_line_ltb s a b.
Proof. intros s H a b. unfold nary_line_ltb, binary_line_ltb. rewrite !H. reflexivity. Qed.

Lemma pop_same : forall s pick, seconds s -> pop Nary pick s = pop Linear pick s.
Proof.
  intros s pick H. unfold pop. cbn [key_ltb].
  assert (E : least (nary_key_ltb s) (queue s) = least (binary_key_ltb s) (queue s)); [|rewrite E; reflexivity].
  unfold least. apply filter_ext. intro a. induction (queue s) as [|b q IH]; [reflexivity|]. cbn. rewrite key_same by exact H. f_equal. exact IH.
Qed.
Lemma locate_ext : forall ltb ltb' shape, (forall a b, ltb a b = ltb' a b) -> forall fuel l x, locate ltb shape fuel l x = locate ltb' shape fuel l x.
Proof.
  intros ltb ltb' shape E. induction fuel as [|fuel IH]; intros l x; [reflexivity|]. destruct l as [|y l]; [reflexivity|].
  cbn [locate]. rewrite !E, !IH. reflexivity.
Qed.
Lemma search_same : forall s shape x, seconds s -> search Nary shape s x = search Linear shape s x.
Proof. intros s shape x H. unfold search. apply locate_ext. exact (line_same s H). Qed.
Lemma detect_same : forall s below ev x, seconds s -> detect Linear below ev s = Ok x -> detect Nary below ev s = Ok x.
Proof.
  intros s below ev x H. unfold detect. rewrite !H. cbn [Bool.eqb].
  destruct (segments_relation _ _); try discriminate; intro K; exact K.
Qed.
Lemma detect_only_same : forall s below ev x, seconds s -> detect_only Linear below ev s = Ok x -> detect_only Nary below ev s = Ok x.
Proof.
  intros s below ev x H. unfold detect_only. destruct (detect Linear below ev s) as [(s', b)|] eqn:E; [|discriminate].
  rewrite (detect_same _ _ _ _ H E). tauto.
Qed.
Lemma contains_same : forall s shape x, seconds s -> line_contains Nary shape s x = line_contains Linear shape s x.
Proof. intros s shape x H. unfold line_contains. rewrite search_same by exact H. reflexivity. Qed.

Lemma process_same : forall e P T s vo ev s', wf s -> seconds s -> stepped e P T s vo ev s' ->
  forall o n, process_nary o n ev (unqueue ev s) = Ok (s', match ev with EL _ => [] | ER r => [seg_of s' (r_left (rgt s r))] end).
Proof.
  intros e P T s vo ev s' Hw H St o n.
  assert (Hu : seconds (unqueue ev s)) by (apply (seconds_same s); [reflexivity|exact H]).
  destruct ev as [i|r]; cbn [process_nary].
  - destruct St as (l1 & l2 & s1 & s2 & El & Es1 & _ & _ & W1 & _ & Hline & D2 & W2 & Dv2 & _ & D3 & Dv3 & _).
    assert (H1 : seconds s1) by (apply (seconds_same s); [rewrite Es1; reflexivity|exact H]).
    assert (H2 : seconds s2) by (apply (seconds_divs s1); assumption).
    rewrite contains_same by exact Hu. destruct (Hline (o_shape o (2 * n))) as (K0 & K1 & _). rewrite K0.
    unfold add_left. unfold line_add in *. rewrite search_same by exact Hu. rewrite K1.
    destruct (Hline (o_shape o (2 * n + 1))) as (_ & _ & K2 & K3). unfold line_above, line_below in *. rewrite search_same by exact H1. rewrite K2, K3.
    assert (E2 : detect_above Nary i (hd_error l2) s1 = Ok s2) by (destruct (hd_error l2); [apply detect_only_same; assumption|exact D2]).
    rewrite E2.
    assert (E3 : detect_below Nary i (last_error l1) s2 = Ok s') by (destruct (last_error l1); [apply detect_only_same; assumption|exact D3]).
    rewrite E3. reflexivity.
  - destruct St as (l1 & l2 & s1 & El & Es1 & W1 & _ & Hline & D2 & Dv & _).
    assert (H1 : seconds s1) by (apply (seconds_same s); [rewrite Es1; reflexivity|exact H]).
    change (r_left (rgt (unqueue (ER r) s) r)) with (r_left (rgt s r)).
    rewrite contains_same by exact Hu. destruct (Hline (o_shape o (2 * n))) as (K0 & K1 & K2 & K3). rewrite K0.
    unfold remove_left. unfold line_above, line_below, line_remove in *. rewrite search_same by exact Hu. rewrite K1, K2, K3.
    assert (E2 : match hd_error l2, last_error l1 with Some a, Some b => detect_only Nary b a s1 | _, _ => Ok s1 end = Ok s').
    { destruct (hd_error l2); [|exact D2]. destruct (last_error l1); [|exact D2]. apply detect_only_same; assumption. }
    rewrite E2. reflexivity.
Qed.
Lemma seconds_stepped : forall e P T s vo ev s', wf s -> seconds s -> stepped e P T s vo ev s' -> seconds s'.
Proof.
  intros e P T s vo ev s' Hw H St. destruct ev as [i|r].
  - destruct St as (l1 & l2 & s1 & s2 & El & Es1 & _ & _ & W1 & _ & _ & _ & W2 & Dv2 & _ & _ & Dv3 & _).
    apply (seconds_divs s2); [exact Dv3|exact W2|]. apply (seconds_divs s1); [exact Dv2|exact W1|].
    apply (seconds_same s); [rewrite Es1; reflexivity|exact H].
  - destruct St as (l1 & l2 & s1 & El & Es1 & W1 & _ & _ & _ & Dv & _).
    apply (seconds_divs s1); [exact Dv|exact W1|]. apply (seconds_same s); [rewrite Es1; reflexivity|exact H].
Qed.

Section Run.
Variables (e : Qc) (P : list point).
Hypothesis Hsh : Sheared e P.
Variable s0 : state.
Notation Ts := (Ts e P).
Notation abs := (abs e).

(** Finished pieces are not changed any more. *)
Lemma finished_kept : forall T s pl s' pl' T', good e P s0 T s pl -> good e P s0 T' s' pl' ->
  (forall ev, In ev pl -> left_of s' ev = left_of s ev) -> (forall ev, In ev pl -> ev_start s' ev = ev_start s ev) ->
  (forall ev, In ev pl -> In ev pl') ->
  forall i, In i (finished s pl) -> seg_of s' i = seg_of s i.
Proof.
  intros T s pl s' pl' T' Hk Hk' Hl Hs Hin i Hi.
  pose proof (i_wf _ _ _ _ _ (k_inv _ _ _ _ _ _ Hk)) as Hw. pose proof (i_wf _ _ _ _ _ (k_inv _ _ _ _ _ _ Hk')) as Hw'.
  pose proof (b_q _ _ _ _ (i_base _ _ _ _ _ (k_inv _ _ _ _ _ _ Hk))) as Hq.
  assert (Hp : In (EL i) pl).
  { apply (k_pl _ _ _ _ _ _ Hk). assert (D : done (abs s (finished s pl)) i) by exact Hi. split; [exact (done_lt _ _ Hq D)|].
    intro J. apply (q_done _ Hq) in D. apply (proj2 D). apply (q_left _ Hq). apply future_event. exact J. }
  unfold finished in Hi. rewrite <- in_rev in Hi. apply in_map_iff in Hi. destruct Hi as (ev & Ei & Hev).
  apply filter_In in Hev. destruct Hev as (Hev & Er). destruct ev as [j|r]; [discriminate Er|]. cbn [left_of] in Ei. clear Er.
  assert (Ei' : r_left (rgt s' r) = i) by (rewrite <- Ei; apply (Hl (ER r)); exact Hev).
  assert (R : (r < length (rights s))%nat) by (exact (proj1 (proj1 (k_pl _ _ _ _ _ _ Hk (ER r)) Hev))).
  assert (R' : (r < length (rights s'))%nat) by (exact (proj1 (proj1 (k_pl _ _ _ _ _ _ Hk' (ER r)) (Hin _ Hev)))).
  destruct (w_rl s Hw r R) as (_ & A). destruct (w_rl s' Hw' r R') as (_ & A'). rewrite Ei in A. rewrite Ei' in A'.
  unfold seg_of, end_of. rewrite A, A'. f_equal; [exact (Hs (EL i) Hp)|exact (Hs (ER r) Hev)].
Qed.

Lemma run_nary_spec : forall fuel T s pl, good e P s0 T s pl -> seconds s ->
  (measure Ts (abs s (finished s pl)) <= fuel)%nat ->
  exists T' s' pl', good e P s0 T' s' pl' /\ seconds s' /\ queue s' = []
  /\ (forall o n, run_nary o fuel n s (map (seg_of s) (rev (finished s pl))) = Ok (map (seg_of s') (rev (finished s' pl')))).
Proof.
  induction fuel as [|fuel IH]; intros T s pl Hk H Hm.
  - assert (Hq : queue s = []).
    { unfold measure in Hm. cbn [SweepLink.abs vq] in Hm. rewrite map_length in Hm. destruct (queue s); [reflexivity|cbn in Hm; lia]. }
    exists T, s, pl. split; [exact Hk|]. split; [exact H|]. split; [exact Hq|]. intros o n. cbn [run_nary]. rewrite Hq. reflexivity.
  - destruct (queue s) as [|ev0 q0] eqn:Eq.
    + exists T, s, pl. split; [exact Hk|]. split; [exact H|]. split; [exact Eq|]. intros o n. cbn [run_nary]. rewrite Eq. reflexivity.
    + destruct (iteration e P Hsh s0 T s pl Hk) as (ev & Hin & Hpop & HT & Hi & Hle & s' & _ & Hk' & Hf & Hlo & Hst & Hm' & St); [rewrite Eq; discriminate|].
      pose proof (i_wf _ _ _ _ _ Hi) as Hw.
      destruct (IH (time_of e s ev) s' (pl ++ [ev]) Hk') as (T' & s2 & pl2 & Hk2 & H2 & Q2 & R2).
      { exact (seconds_stepped _ _ _ _ _ _ _ Hw H St). }
      { lia. }
      exists T', s2, pl2. split; [exact Hk2|]. split; [exact H2|]. split; [exact Q2|]. intros o n.
      cbn [run_nary]. rewrite Eq, pop_same by exact H. rewrite Hpop. cbn [bind_res].
      rewrite (process_same e P _ s _ ev s' Hw H St). cbn [bind_res]. rewrite <- (R2 o (S n)). f_equal.
      rewrite Hf, rev_app_distr, map_app. f_equal.
      * apply map_ext_in. intros i Ii. symmetry. apply (finished_kept T s pl s' (pl ++ [ev]) _ Hk Hk').
        -- intros ev' K. apply Hlo. apply in_or_app. left. exact K.
        -- intros ev' K. apply Hst. apply in_or_app. left. exact K.
        -- intros ev' K. apply in_or_app. left. exact K.
        -- apply in_rev. exact Ii.
      * destruct ev as [i|r]; reflexivity.
Qed.
End Run.

(** Grouping of distinct values. *)
Lemma group_by_distinct : forall l, NoDup l -> map fst (group_by seg_eqb (fun x => x) l) = l.
Proof.
  induction l as [|x l IH]; intro N; [reflexivity|]. apply NoDup_cons_iff in N. destruct N as (Nx & N). specialize (IH N).
  cbn [group_by]. destruct (group_by seg_eqb (fun x => x) l) as [|(k, g) t] eqn:E.
  - cbn in IH. subst l. reflexivity.
  - destruct (seg_eqb_spec x k) as [->|K].
    + exfalso. apply Nx. rewrite <- IH. left. reflexivity.
    + cbn. f_equal. exact IH.
Qed.

Theorem merge_correct : forall ss, non_overlapping ss ->
  exists g, (forall o, segments_to_multisegment o ss = Ok g)
  /\ points_of g = [] /\ polygons_of g = [] /\ canonical g /\ arranged (segments_of g)
  /\ (forall p, in_geometry p g <-> on_segments p ss).
Proof.
  intros ss N. assert (N0 : non_overlapping []) by (split; [constructor|intros [|i] [|j] a b _ K; discriminate K]).
  pose proof (filled_linear [] ss) as Hf. pose proof (lawful_operands _ _ N0 N) as Hl.
  change (fill_linear [] ss) with (register false ss empty_state) in Hf.
  set (s0 := register false ss empty_state) in *.
  destruct (shear_exists (relevant_points s0)) as (e & _ & Hsh).
  destruct (init_good _ _ Hf Hl e Hsh) as (T0 & Hk & Hm).
  assert (Hn : length (tag [] ss) = length ss) by (unfold tag; rewrite app_length, !map_length; reflexivity). rewrite Hn in Hm.
  assert (H0 : seconds s0).
  { intro i. destruct (Nat.lt_ge_cases i (length (lefts s0))) as [L|L].
    - destruct (in_tag _ _ Hf i L) as (b & sg & E). rewrite (f_left _ _ Hf i b sg E). cbn [l_first]. apply nth_tag in E.
      destruct E as [(_ & E)|(E & _)]; [destruct i; discriminate E|exact E].
    - unfold lft. rewrite nth_overflow by exact L. reflexivity. }
  destruct (run_nary_spec e _ Hsh s0 (enough (length ss)) T0 s0 [] Hk H0) as (T & s & pl & Hk' & Hs & Hq & R); [lia|].
  destruct (final_swept _ _ Hf e Hsh None T s pl s Hk') as (H & _).
  { intros ev _. reflexivity. }
  { left. split; [exact Hq|reflexivity]. }
  set (out := rev (finished s pl)) in *.
  assert (Hnd : NoDup (map (seg_of s) out)).
  { pose proof (sw_nodup _ _ _ _ H) as Nd. pose proof (sw_apart _ _ _ _ H) as Ap. pose proof (sw_range _ _ _ _ H) as Rg.
    pose proof (sw_plt _ _ _ _ H) as Pl. clearbody out. clear - Nd Ap Rg Pl Hs. induction out as [|i o IH]; [constructor|].
    apply NoDup_cons_iff in Nd. destruct Nd as (Ni & Nd). cbn. constructor.
    - intro K. apply in_map_iff in K. destruct K as (j & E & Hj).
      assert (Hij : j <> i) by (intros ->; exact (Ni Hj)).
      destruct (Ap i j (or_introl eq_refl) (Rg j (or_intror Hj)) Hij) as [K|(_ & _ & K & _)]; [|rewrite !Hs in K; congruence].
      destruct (midpoint_inside (seg_of s i)) as (m & M1 & M2 & M3); [apply plt_neq; apply Pl; apply Rg; left; reflexivity|].
      destruct (K m M1) as ([J|J] & _); [rewrite E; exact M1|exact (M2 J)|exact (M3 J)].
    - apply IH.
      + exact Nd.
      + intros a b Ha Hb Hab. destruct (Ap a b (or_intror Ha) Hb Hab) as [K|(_ & _ & K & _)]; [left; exact K|rewrite !Hs in K; congruence].
      + intros a Ha. apply Rg. right. exact Ha. }
  set (result := sort_by seg_ltb (map (seg_of s) out)).
  assert (Ar : arranged result).
  { assert (Hr : forall k, In k result -> exists i, In i out /\ k = seg_of s i).
    { intros k K. apply sort_by_in in K. apply in_map_iff in K. destruct K as (i & <- & K). exists i. split; [exact K|reflexivity]. }
    split; [|split].
    - intros k K. destruct (Hr k K) as (i & Hi & ->). exact (sw_plt _ _ _ _ H i (sw_range _ _ _ _ H i Hi)).
    - apply sort_segments_sorted. exact Hnd.
    - intros a b Ha Hb Hab p Pa Pb. destruct (Hr a Ha) as (i & Hi & ->). destruct (Hr b Hb) as (j & Hj & ->).
      assert (Hij : j <> i) by (intros ->; apply Hab; reflexivity).
      destruct (sw_apart _ _ _ _ H i j Hi (sw_range _ _ _ _ H j Hj) Hij) as [K|(_ & _ & K & _)]; [exact (K p Pa Pb)|rewrite !Hs in K; congruence]. }
  assert (Pt : forall p, on_segments p result <-> on_segments p ss).
  { intro p. split.
    - intros (k & K & Kp). apply sort_by_in in K. apply in_map_iff in K. destruct K as (i & <- & K).
      destruct (piece_source _ _ _ _ _ H i (sw_range _ _ _ _ H i K)) as (sg & Hsg & W). rewrite Hs in Hsg. exists sg. split; [exact Hsg|exact (W p Kp)].
    - intros (sg & Hsg & Kp). destruct (piece_at _ _ _ _ _ H false sg p Hsg Kp) as (i & Hi & _ & Pi & _).
      exists (seg_of s i). split; [|exact Pi]. apply sort_by_in. apply (in_map (seg_of s)).
      destruct (in_dec Nat.eq_dec i out) as [K|K]; [exact K|exfalso]. destruct (sw_rest _ _ _ _ H i Hi K) as (x & Ex & _). discriminate Ex. }
  exists (unpack_segments result). split.
  { intro o. unfold segments_to_multisegment, merge_segments, merge_list. fold s0.
    pose proof (R o 0%nat) as R'. cbn [finished map filter rev] in R'. rewrite R'. cbn [bind_res]. fold out. rewrite group_by_distinct by exact Hnd. reflexivity. }
  destruct (unpack_segments_canonical result) as (C1 & C2 & C3 & C4).
  split; [exact C2|]. split; [exact C4|]. split; [exact C1|]. rewrite C3. split; [exact Ar|].
  intro p. rewrite in_unpacked. apply Pt.
Qed.
Theorem merge_exact : forall ss, non_overlapping ss ->
  exists g, (forall o, segments_to_multisegment o ss = Ok g) /\ points_of g = [] /\ polygons_of g = []
  /\ (forall p, in_geometry p g <-> on_segments p ss).
Proof. intros ss N. destruct (merge_correct ss N) as (g & G & A & B & _ & _ & C). exists g. tauto. Qed.
Theorem merge_valid : forall ss, non_overlapping ss ->
  exists g, (forall o, segments_to_multisegment o ss = Ok g)
  /\ valid_multisegment (segments_of g) /\ canonical g /\ arranged (segments_of g).
Proof.
  intros ss N. destruct (merge_correct ss N) as (g & G & _ & _ & C & A & _). exists g.
  pose proof (arranged_valid _ A). tauto.
Qed.
