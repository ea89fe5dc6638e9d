(** Whatever is swept, pieces are parts of the segments registered, cut at
    nodes only.  Proof support only, no part of /repo is modelled here. *)
From Verif Require Import QcTac Geom Spec SpecSweep SpecNode GeomFacts Relation Toward Pair Bounding Sweep SweepCmp SweepLink SweepStart SweepLoop Linear Labelled Contour Filter Mixed Erase LinearProps QueueThms QueueProps MergeCuts MergeThms.

Section Sides.
Variables ss es : list segment.
Notation both := (ss ++ es).
Hypothesis HP : Forall proper both.
Definition origin (b : bool) : list segment := if b then ss else es.

(** Pieces of the first operand do not overlap. *)
Definition apart (s : state) : Prop := forall i j, (i < length (lefts s))%nat -> (j < length (lefts s))%nat -> i <> j ->
  l_first (lft s i) = true -> l_first (lft s j) = true -> ~ overlap (seg_of s i) (seg_of s j).
Record whole (s : state) : Prop := {
  a_held : held both s;
  a_apart : non_overlapping ss -> apart s;
  a_side : forall i, (i < length (lefts s))%nat -> exists sg, In sg (origin (l_first (lft s i))) /\ SweepLoop.within (seg_of s i) sg
}.
Lemma whole_sane : forall s, whole s -> sane s.
Proof. intros s H. exact (h_sane _ _ (a_held s H)). Qed.
Lemma erase_first : forall s s1 i, erase s1 = erase s -> l_first (lft s1 i) = l_first (lft s i).
Proof.
  intros s s1 i E. pose proof (f_equal (fun x => l_first (lft x i)) E) as K. cbn beta in K. rewrite !lft_erase in K. exact K.
Qed.
Lemma whole_erase : forall s s1, erase s1 = erase s -> whole s -> whole s1.
Proof.
  intros s s1 E H. constructor; [exact (held_erase both s s1 E (a_held s H))| |].
  { intros N i j. rewrite (erase_len s s1 E), !(erase_first s s1 _ E), !(erase_seg s s1 _ E). exact (a_apart s H N i j). }
  intros i Hi. rewrite (erase_len s s1 E) in Hi.
  rewrite (erase_first s s1 i E), (erase_seg s s1 i E). exact (a_side s H i Hi).
Qed.
Lemma overlap_within : forall a b c d, SweepLoop.within a c -> SweepLoop.within b d -> overlap a b -> overlap c d.
Proof. intros a b c d W V (p & q & N & P1 & P2 & Q1 & Q2). exists p, q. split; [exact N|]. split; [exact (W p P1)|]. split; [exact (V p P2)|]. split; [exact (W q Q1)|exact (V q Q2)]. Qed.
Lemma halves_apart : forall a p b, plt a p -> plt p b -> ~ overlap (Seg a p) (Seg p b).
Proof.
  intros a p b L1 L2 (x & y & N & X1 & X2 & Y1 & Y2). apply N.
  assert (K : forall q, on_segment q (Seg a p) -> on_segment q (Seg p b) -> q = p).
  { intros q Q1 Q2. apply on_segment_lex in Q1; [|exact L1]. apply on_segment_lex in Q2; [|exact L2]. destruct Q1 as (_ & _ & Q1), Q2 as (_ & Q2 & _).
    apply ple_lt_eq in Q1. destruct Q1 as [Q1|Q1]; [|exact Q1]. apply ple_lt_eq in Q2. destruct Q2 as [Q2|Q2]; [|symmetry; exact Q2].
    exfalso. exact (plt_irrefl _ (plt_trans _ _ _ Q1 Q2)). }
  rewrite (K x X1 X2), (K y Y1 Y2). reflexivity.
Qed.
Lemma overlap_swap : forall a b, overlap a b -> overlap b a.
Proof. intros a b (p & q & N & P1 & P2 & Q1 & Q2). exists p, q. tauto. Qed.
Lemma apart_divide : forall s i p, sane s -> apart s -> (i < length (lefts s))%nat -> inside_segment p (seg_of s i) ->
  plt (l_start (lft s i)) p -> plt p (end_of s i) -> apart (divide i p s).
Proof.
  intros s i p Hs A Hi Hp L1 L2. pose proof (sn_wf s Hs) as Hw. pose proof (sn_up s Hs i Hi) as Up.
  set (old := fun j => if Nat.eqb j (length (lefts s)) then i else j).
  assert (O : forall j, (j < S (length (lefts s)))%nat -> (old j < length (lefts s))%nat /\ l_first (lft (divide i p s) j) = l_first (lft s (old j))
    /\ SweepLoop.within (seg_of (divide i p s) j) (seg_of s (old j))).
  { intros j Hj. unfold old. destruct (Nat.eqb_spec j (length (lefts s))) as [->|Nj].
    - split; [exact Hi|]. unfold seg_of at 1. rewrite (div_lft_tail s i p Hi), (div_end_tail s i p Hw Hi). split; [reflexivity|].
      apply (sub_within (l_start (lft s i)) (end_of s i)); [exact Up|exact L2|exact (proj1 Hp)|exact (on_segment_end (seg_of s i))|intros q K; exact K].
    - split; [lia|]. destruct (Nat.eq_dec j i) as [->|Nij].
      + unfold seg_of at 1. rewrite (div_lft_i s i p Hw Hi), (div_end_i s i p Hw Hi). split; [reflexivity|].
        apply (sub_within (l_start (lft s i)) (end_of s i)); [exact Up|exact L1|exact (on_segment_start (seg_of s i))|exact (proj1 Hp)|intros q K; exact K].
      + rewrite (divided_seg_other s i p j Hs Hi) by lia. rewrite (div_lft_other s i p j) by lia. split; [reflexivity|]. intros q K. exact K. }
  assert (T : ~ overlap (seg_of (divide i p s) i) (seg_of (divide i p s) (length (lefts s)))).
  { unfold seg_of. rewrite (div_lft_tail s i p Hi), (div_end_tail s i p Hw Hi), (div_lft_i s i p Hw Hi), (div_end_i s i p Hw Hi).
    exact (halves_apart _ _ _ L1 L2). }
  unfold apart. rewrite (div_lefts s i p Hi). intros j k Hj Hk N F1 F2. destruct (O j Hj) as (B1 & B2 & B3), (O k Hk) as (C1 & C2 & C3).
  rewrite B2 in F1. rewrite C2 in F2. destruct (Nat.eq_dec (old j) (old k)) as [E|E].
  - unfold old in E. destruct (Nat.eqb_spec j (length (lefts s))) as [->|Nj], (Nat.eqb_spec k (length (lefts s))) as [->|Nk]; try contradiction.
    + subst k. intro K. exact (T (overlap_swap _ _ K)).
    + subst j. exact T.
  - intro K. exact (A _ _ B1 C1 E F1 F2 (overlap_within _ _ _ _ B3 C3 K)).
Qed.
Lemma whole_divide : forall s i p, whole s -> node both p -> (i < length (lefts s))%nat -> inside_segment p (seg_of s i) ->
  plt (l_start (lft s i)) p -> plt p (end_of s i) -> whole (divide i p s).
Proof.
  intros s i p H HN Hi Hp L1 L2. pose proof (whole_sane s H) as Hs. pose proof (sn_wf s Hs) as Hw. constructor; [exact (held_divide both s i p (a_held s H) HN Hi Hp L1 L2)|intro N; exact (apart_divide s i p Hs (a_apart s H N) Hi Hp L1 L2)|].
  destruct (a_side s H i Hi) as (u & Hu & W). pose proof (sn_up s Hs i Hi) as Up.
  rewrite (div_lefts s i p Hi). intros j Hj. destruct (Nat.eq_dec j (length (lefts s))) as [->|Nj].
  - unfold seg_of. rewrite (div_lft_tail s i p Hi), (div_end_tail s i p Hw Hi). cbn [l_start l_first].
    exists u. split; [exact Hu|]. apply (sub_within (l_start (lft s i)) (end_of s i)); [exact Up|exact L2|exact (proj1 Hp)|exact (on_segment_end (seg_of s i))|exact W].
  - destruct (Nat.eq_dec j i) as [->|Nij].
    + unfold seg_of. rewrite (div_lft_i s i p Hw Hi), (div_end_i s i p Hw Hi). cbn [set_right l_start l_first].
      exists u. split; [exact Hu|]. apply (sub_within (l_start (lft s i)) (end_of s i)); [exact Up|exact L1|exact (on_segment_start (seg_of s i))|exact (proj1 Hp)|exact W].
    + rewrite (divided_seg_other s i p j Hs Hi) by lia. rewrite (div_lft_other s i p j) by lia. apply (a_side s H). lia.
Qed.
Lemma whole_cuts : forall s s', cuts (node both) s s' -> whole s -> whole s'.
Proof.
  intros s s' H. induction H as [s|s s1 s' E H IH|s i p s' HN Hi Hp L1 L2 H IH]; intro J.
  - exact J.
  - exact (IH (whole_erase s s1 E J)).
  - exact (IH (whole_divide s i p J HN Hi Hp L1 L2)).
Qed.
Definition kept (s s' : state) : Prop := whole s' /\ (length (lefts s) <= length (lefts s'))%nat /\ (work both s' <= work both s)%nat.
Lemma kept_refl : forall s, whole s -> kept s s.
Proof. intros s H. split; [exact H|]. split; reflexivity. Qed.
Lemma kept_trans : forall s s1 s2, kept s s1 -> kept s1 s2 -> kept s s2.
Proof. intros s s1 s2 (_ & A) (H & B). split; [exact H|lia]. Qed.
Lemma kept_erase : forall s s1, erase s1 = erase s -> whole s -> kept s s1.
Proof. intros s s1 E H. split; [exact (whole_erase s s1 E H)|]. rewrite (erase_len s s1 E), (work_erase both s s1 E). split; reflexivity. Qed.
Lemma detect_kept : forall k b i s s' f, whole s -> (b < length (lefts s))%nat -> (i < length (lefts s))%nat -> detect k b i s = Ok (s', f) -> kept s s'.
Proof.
  intros k b i s s' f H Hb Hi E. pose proof (whole_sane s H) as Hs. pose proof (a_held s H) as Hh.
  assert (C : cuts (node both) s s').
  { apply (detect_cuts (node both) k b i s s' f Hs Hb Hi); [exact (held_start both s b Hh Hb)|exact (held_end both s b Hh Hb)|exact (held_start both s i Hh Hi)|exact (held_end both s i Hh Hi)| |exact E].
    intros p P1 P2. exact (held_meet both HP s b i p Hh Hb Hi P1 P2). }
  split; [exact (whole_cuts s s' C H)|]. split; [exact (proj1 (proj2 (path_sane _ _ (cuts_path _ _ _ C) Hs)))|exact (work_cuts both HP s s' C Hh)].
Qed.
Lemma detect_only_kept : forall k b i s s', whole s -> (b < length (lefts s))%nat -> (i < length (lefts s))%nat -> detect_only k b i s = Ok s' -> kept s s'.
Proof.
  intros k b i s s' H Hb Hi E. unfold detect_only in E. destruct (detect k b i s) as [(x, f)|] eqn:D; [|discriminate E].
  injection E as <-. exact (detect_kept k b i s x f H Hb Hi D).
Qed.
Lemma whole_line : forall s l, sane (with_line s l) -> whole s -> kept s (with_line s l).
Proof. intros s l Hl H. split; [|split; exact (Nat.le_refl _)]. constructor; [exact (held_line both s l Hl (a_held s H))|exact (a_apart s H)|exact (a_side s H)]. Qed.
Lemma add_kept : forall k o n i s s', whole s -> (i < length (lefts s))%nat -> add_left k o n i s = Ok s' -> kept s s'.
Proof.
  intros k o n i s s' H Hi E. unfold add_left in E. destruct (add_sane k (o_shape o (2 * n)) i s (whole_sane s H) Hi) as (l & El & Hl).
  rewrite El in E. pose proof (whole_line s l Hl H) as K1. apply (kept_trans _ _ _ K1). destruct K1 as (H1 & _). set (s1 := with_line s l) in *. assert (Hi1 : (i < length (lefts s1))%nat) by exact Hi.
  destruct (line_above k (o_shape o (2 * n + 1)) s1 i) as [a|] eqn:Ea; cbn [detect_above] in E.
  - pose proof (above_range k _ s1 i a Hl Ea) as Ra. destruct (detect_only k i a s1) as [s2|] eqn:E2; [|discriminate E].
    pose proof (detect_only_kept k i a s1 s2 H1 Hi1 Ra E2) as K2. apply (kept_trans _ _ _ K2). destruct K2 as (H2 & L2).
    destruct (line_below k (o_shape o (2 * n + 1)) s1 i) as [b|] eqn:Eb; cbn [detect_below] in E.
    + pose proof (below_range k _ s1 i b Hl Eb) as Rb. apply (detect_only_kept k b i s2 s' H2); [lia|lia|exact E].
    + injection E as <-. exact (kept_refl s2 H2).
  - destruct (line_below k (o_shape o (2 * n + 1)) s1 i) as [b|] eqn:Eb; cbn [detect_below] in E.
    + pose proof (below_range k _ s1 i b Hl Eb) as Rb. exact (detect_only_kept k b i s1 s' H1 Rb Hi1 E).
    + injection E as <-. exact (kept_refl s1 H1).
Qed.
Lemma remove_kept : forall k o n i s s', whole s -> remove_left k o n i s = Ok s' -> kept s s'.
Proof.
  intros k o n i s s' H E. unfold remove_left in E. pose proof (whole_sane s H) as Hs.
  destruct (line_remove k (o_shape o (2 * n)) i s) as [s1|] eqn:E1; [|discriminate E].
  destruct (remove_sane k _ i s s1 Hs E1) as (l & -> & Hl). pose proof (whole_line s l Hl H) as K1. apply (kept_trans _ _ _ K1). destruct K1 as (H1 & _).
  destruct (line_above k (o_shape o (2 * n)) s i) as [a|] eqn:Ea; [|injection E as <-; exact (kept_refl _ H1)].
  destruct (line_below k (o_shape o (2 * n)) s i) as [b|] eqn:Eb; [|injection E as <-; exact (kept_refl _ H1)].
  exact (detect_only_kept k b a _ s' H1 (below_range k _ s i b Hs Eb) (above_range k _ s i a Hs Ea) E).
Qed.
Lemma add_labelled_kept : forall k holey result o n i s s', whole s -> (i < length (lefts s))%nat ->
  add_labelled k holey result o n i s = Ok s' -> kept s s'.
Proof.
  intros k holey result o n i s s' H Hi E. unfold add_labelled in E. destruct (add_sane k (o_shape o (2 * n)) i s (whole_sane s H) Hi) as (l & El & Hl).
  rewrite El in E. pose proof (whole_line s l Hl H) as K1. apply (kept_trans _ _ _ K1). destruct K1 as (H1 & _). set (s1 := with_line s l) in *. assert (Hi1 : (i < length (lefts s1))%nat) by exact Hi.
  cbv zeta in E. set (below := line_below k (o_shape o (2 * n + 1)) s1 i) in *.
  assert (Rb : forall b, below = Some b -> (b < length (lefts s1))%nat) by (intros b Eb; exact (below_range k _ s1 i b Hl Eb)).
  assert (Ra : forall a, line_above k (o_shape o (2 * n + 1)) s1 i = Some a -> (a < length (lefts s1))%nat) by (intros a Ea; exact (above_range k _ s1 i a Hl Ea)).
  pose proof (kept_erase _ _ (erase_compute holey result i below s1) H1) as K2. apply (kept_trans _ _ _ K2). destruct K2 as (H2 & L2).
  set (s2 := compute_fields holey result i below s1) in *.
  destruct (match line_above k (o_shape o (2 * n + 1)) s1 i with
    | None => Ok s2
    | Some a =>
        bind_res (detect k i a s2) (fun '(s3, f) =>
          Ok (if f then compute_fields holey result a (Some i) (compute_fields holey result i below s3) else s3))
    end) as [s4|] eqn:E4; [|discriminate E]. cbn [bind_res] in E.
  assert (K4 : kept s2 s4).
  { destruct (line_above k (o_shape o (2 * n + 1)) s1 i) as [a|]; [|injection E4 as <-; exact (kept_refl _ H2)].
    pose proof (Ra a eq_refl) as Ha. destruct (detect k i a s2) as [(s3, f)|] eqn:E3; [|discriminate E4]. cbn [bind_res] in E4.
    injection E4 as <-. assert (K3 : kept s2 s3) by (apply (detect_kept k i a s2 s3 f H2); [lia|lia|exact E3]).
    apply (kept_trans _ _ _ K3). destruct K3 as (H3 & _). destruct f; [|exact (kept_refl _ H3)]. apply kept_erase; [rewrite !erase_compute; reflexivity|exact H3]. }
  apply (kept_trans _ _ _ K4). destruct K4 as (H4 & L4).
  destruct below as [b|]; [|injection E as <-; exact (kept_refl _ H4)]. pose proof (Rb b eq_refl) as Hb.
  destruct (detect k b i s4) as [(s5, f)|] eqn:E5; [|discriminate E]. cbn [bind_res] in E. injection E as <-.
  assert (K5 : kept s4 s5) by (apply (detect_kept k b i s4 s5 f H4); [lia|lia|exact E5]).
  apply (kept_trans _ _ _ K5). destruct K5 as (H5 & _). destruct f; [|exact (kept_refl _ H5)]. apply kept_erase; [rewrite !erase_compute; reflexivity|exact H5].
Qed.
Lemma process_linear_kept : forall o n ev s s', whole s -> in_range s ev -> process_linear o n ev s = Ok s' -> kept s s'.
Proof.
  intros o n [i|r] s s' H Hr E; cbn [process_linear] in E.
  - exact (add_kept Linear o n i s s' H Hr E).
  - cbv zeta in E. destruct (line_contains Linear (o_shape o (2 * n)) s (r_left (rgt s r))).
    + exact (remove_kept Linear o n _ s s' H E).
    + injection E as <-. exact (kept_refl s H).
Qed.
Lemma process_labelled_kept : forall k holey result o n ev s s' b, whole s -> in_range s ev ->
  process_labelled k holey result o n ev s = Ok (s', b) -> kept s s'.
Proof.
  intros k holey result o n [i|r] s s' b H Hr E; cbn [process_labelled] in E.
  - destruct (line_contains k (o_shape o (2 * n)) s i); [injection E as <- _; exact (kept_refl s H)|].
    destruct (add_labelled k holey result o n i s) as [x|] eqn:E1; [|discriminate E]. cbn [bind_res] in E. injection E as <- _.
    exact (add_labelled_kept k holey result o n i s x H Hr E1).
  - cbv zeta in E. destruct (line_contains k (o_shape o (2 * n)) s (r_left (rgt s r))); [|injection E as <- _; exact (kept_refl s H)].
    destruct (remove_left k o n (r_left (rgt s r)) s) as [x|] eqn:E1; [|discriminate E]. cbn [bind_res] in E. injection E as <- _.
    exact (remove_kept k o n _ s x H E1).
Qed.
Lemma pop_kept : forall k pick s ev s1, pop k pick s = Ok (ev, s1) -> whole s -> kept s s1 /\ in_range s1 ev.
Proof.
  intros k pick s ev s1 E H. destruct (pop_sane k pick s ev s1 E (whole_sane s H)) as (K1 & K2). split; [|exact K2].
  unfold pop in E. destruct (least (key_ltb k s) (queue s)) as [|e0 l]; [discriminate E|]. injection E as _ <-.
  split; [constructor; [|exact (a_apart s H)|exact (a_side s H)]; constructor; [exact K1|exact (h_part _ _ (a_held s H))]|]. split; [exact (Nat.le_refl _)|].
  unfold work. cbn [lefts queue]. apply Nat.add_le_mono_l. apply filter_short.
Qed.
Lemma range_kept : forall s s' ev, kept s s' -> sane s -> in_range s ev -> in_range s' ev.
Proof.
  intros s s' ev (H & L) Hs Hr. pose proof (w_len s (sn_wf s Hs)) as A. pose proof (w_len s' (sn_wf s' (whole_sane s' H))) as B. destruct ev; cbn in *; lia.
Qed.
(** Runs keep the pieces and return events of the last state. *)
Lemma run_kept : forall k step stop o,
  (forall n ev s s' out, whole s -> in_range s ev -> step n ev s = Ok (s', out) -> kept s s' /\ Forall (in_range s') out) ->
  forall fuel n s acc s' out, whole s -> Forall (in_range s) acc -> run k step stop o fuel n s acc = Ok (s', out) -> whole s' /\ Forall (in_range s') out.
Proof.
  intros k step stop o Hstep fuel. induction fuel as [|f IH]; intros n s acc s' out H Ha E; cbn [run] in E.
  - destruct (queue s); [|discriminate E]. injection E as <- <-. split; assumption.
  - destruct (queue s) as [|e q]; [injection E as <- <-; split; assumption|].
    destruct (pop k (o_pick o n) s) as [(ev, s1)|] eqn:E1; [|discriminate E]. destruct (pop_kept _ _ _ _ _ E1 H) as (K1 & R1). pose proof (proj1 K1) as H1.
    assert (Ha1 : Forall (in_range s1) acc) by (revert Ha; apply Forall_impl; intros x; apply (range_kept s s1 x K1 (whole_sane s H))).
    destruct (stop (ev_start s1 ev)); [injection E as <- <-; split; assumption|].
    destruct (step n ev s1) as [(s2, add)|] eqn:E2; [|discriminate E]. destruct (Hstep n ev s1 s2 add H1 R1 E2) as (K2 & R2).
    apply (IH (S n) s2 (acc ++ add) s' out (proj1 K2)); [|exact E]. apply Forall_app. split; [|exact R2].
    revert Ha1. apply Forall_impl. intros x. apply (range_kept s1 s2 x K2 (whole_sane s1 H1)).
Qed.
Lemma left_kept : forall s r, whole s -> (r < length (rights s))%nat -> in_range s (EL (r_left (rgt s r))).
Proof. intros s r H Hr. exact (proj1 (w_rl s (sn_wf s (whole_sane s H)) r Hr)). Qed.
Lemma step_lefts_kept : forall o n ev s s' out, whole s -> in_range s ev -> step_lefts o n ev s = Ok (s', out) -> kept s s' /\ Forall (in_range s') out.
Proof.
  intros o n ev s s' out H Hr E. unfold step_lefts in E. destruct (process_linear o n ev s) as [x|] eqn:E1; [|discriminate E]. injection E as <- <-.
  pose proof (process_linear_kept o n ev s x H Hr E1) as K. split; [exact K|]. pose proof (range_kept s x ev K (whole_sane s H) Hr) as R.
  destruct ev as [i|r]; [constructor|]. constructor; [|constructor]. exact (left_kept x r (proj1 K) R).
Qed.
Lemma step_all_kept : forall o n ev s s' out, whole s -> in_range s ev -> step_all o n ev s = Ok (s', out) -> kept s s' /\ Forall (in_range s') out.
Proof.
  intros o n ev s s' out H Hr E. unfold step_all in E. destruct (process_linear o n ev s) as [x|] eqn:E1; [|discriminate E]. injection E as <- <-.
  pose proof (process_linear_kept o n ev s x H Hr E1) as K. split; [exact K|]. constructor; [|constructor]. exact (range_kept s x ev K (whole_sane s H) Hr).
Qed.
Lemma step_mixed_kept : forall out result o n ev s s' add, (forall ev s, whole s -> in_range s ev -> Forall (in_range s) (out ev s)) ->
  whole s -> in_range s ev -> step_mixed out result o n ev s = Ok (s', add) -> kept s s' /\ Forall (in_range s') add.
Proof.
  intros out result o n ev s s' add Ho H Hr E. unfold step_mixed in E. destruct (process_labelled Mixed false result o n ev s) as [(x, b)|] eqn:E1; [|discriminate E].
  cbn [bind_res] in E. injection E as <- <-. pose proof (process_labelled_kept Mixed false result o n ev s x b H Hr E1) as K. split; [exact K|].
  apply Ho; [exact (proj1 K)|]. exact (range_kept s x ev K (whole_sane s H) Hr).
Qed.
Lemma out_right_kept : forall ev s, whole s -> in_range s ev -> Forall (in_range s) (out_right ev s).
Proof. intros [i|r] s H Hr; [constructor|]. constructor; [exact (left_kept s r H Hr)|constructor]. Qed.
Lemma out_left_kept : forall ev s, whole s -> in_range s ev -> Forall (in_range s) (out_left ev s).
Proof. intros [i|r] s H Hr; repeat constructor. exact Hr. Qed.
Lemma out_all_kept : forall ev s, whole s -> in_range s ev -> Forall (in_range s) (out_all ev s).
Proof. intros ev s H Hr. repeat constructor. exact Hr. Qed.
Lemma filled_whole : forall s, filled (tag ss es) s -> whole s.
Proof.
  intros s Hf. assert (Hn : forall i, (i < length (lefts s))%nat -> exists sg, In sg (origin (l_first (lft s i))) /\ seg_of s i = Seg (seg_lo sg) (seg_hi sg)).
  { intros i Hi. rewrite (f_lefts _ _ Hf) in Hi. apply nth_error_Some in Hi. destruct (nth_error (tag ss es) i) as [(b, sg)|] eqn:E; [|congruence].
    destruct (init_seg _ _ Hf i b sg E) as (K1 & K2). exists sg. split; [|exact K1]. rewrite K2. apply nth_tag in E.
    destruct E as [(-> & E)|(-> & _ & E)]; exact (nth_error_In _ _ E). }
  assert (Ho : forall b sg, In sg (origin b) -> In sg both) by (intros [] sg K; apply in_or_app; [left|right]; exact K).
  assert (W : forall sg, SweepLoop.within (Seg (seg_lo sg) (seg_hi sg)) sg) by (intros sg p K; apply on_segment_norm; exact K).
  constructor; [constructor| |].
  - apply Forall_app in HP. exact (filled_tag_sane ss es s Hf (proj1 HP) (proj2 HP)).
  - intros i Hi. destruct (Hn i Hi) as (sg & Hsg & E). rewrite E. apply Ho in Hsg. split; [exists sg; split; [exact Hsg|exact (W sg)]|].
    cbn [s_start s_end]. unfold seg_lo, seg_hi. split; left; exists sg; (split; [exact Hsg|]); destruct (pt_ltb (s_end sg) (s_start sg)) eqn:K;
      rewrite ?K; first [left; reflexivity|right; reflexivity|idtac].
  - intros (_ & N) i j Hi Hj Nij Fi Fj.
    assert (Hm : forall k, (k < length (lefts s))%nat -> l_first (lft s k) = true -> exists sg, nth_error ss k = Some sg /\ seg_of s k = Seg (seg_lo sg) (seg_hi sg)).
    { intros k Hk Fk. rewrite (f_lefts _ _ Hf) in Hk. apply nth_error_Some in Hk. destruct (nth_error (tag ss es) k) as [(b, sg)|] eqn:E; [|congruence].
      destruct (init_seg _ _ Hf k b sg E) as (K1 & K2). rewrite K2 in Fk. subst b. exists sg. split; [|exact K1]. apply nth_tag in E.
      destruct E as [(_ & E)|(E & _)]; [exact E|discriminate E]. }
    destruct (Hm i Hi Fi) as (a & Ea & ->), (Hm j Hj Fj) as (b & Eb & ->). intro K. exact (N i j a b Nij Ea Eb (overlap_within _ _ _ _ (W a) (W b) K)).
  - intros i Hi. destruct (Hn i Hi) as (sg & Hsg & E). exists sg. rewrite E. split; [exact Hsg|exact (W sg)].
Qed.
(** Segment of an event of either direction is directed, its endpoints are nodes. *)
Definition cut_of (of : list segment) (t : segment) : Prop :=
  (exists sg, In sg of /\ forall p, on_segment p t -> on_segment p sg) /\ plt (s_start t) (s_end t) /\ node both (s_start t) /\ node both (s_end t).
Lemma piece_cut : forall s i, whole s -> (i < length (lefts s))%nat -> cut_of (origin (l_first (lft s i))) (seg_of s i).
Proof.
  intros s i H Hi. destruct (h_part _ _ (a_held s H) i Hi) as (_ & N1 & N2). split; [exact (a_side s H i Hi)|].
  split; [exact (sn_up s (whole_sane s H) i Hi)|split; assumption].
Qed.
Lemma cut_both : forall b t, cut_of (origin b) t -> cut_of both t.
Proof.
  intros b t ((sg & K & W) & H). split; [|exact H]. exists sg. split; [|exact W]. apply in_or_app. destruct b; [left|right]; exact K.
Qed.
End Sides.
