(** Merging of segments which may overlap never fails and returns parts of the
    segments.  Proof support only, no part of /repo is modelled here. *)
From Coq Require Import Permutation Sorted.
From Verif Require Import QcTac Geom Spec SpecSweep SpecNode GeomFacts SortFacts Relation PairFacts PairProofs PairThms Toward Pair Bounding Sweep SweepCmp SweepLink SweepStart SweepLoop Linear Labelled Erase UnpackThms SelectThms LinearProps LinearThms QueueThms QueueProps MergeCuts.

Lemma overlap_dec : forall a b, proper a -> proper b -> overlap a b \/ ~ overlap a b.
Proof.
  intros a b Pa Pb. destruct (pair_case_spec a b Pa Pb) as [? ? O|? ? ? ? ? ? O|? ? ? ? ? ? O|? ? ? ? ? ? O|? ? ? ? ? ? O|p H1 H2|p H1 H2|H1];
    try (left; exact O); right.
  - exact (no_overlap_unique a b p H2).
  - exact (no_overlap_unique a b p H2).
  - exact (no_overlap_none a b H1).
Qed.
(** Parts of overlapping segments with a common point inside of one of them overlap. *)
Lemma parts_overlap : forall a b c d u v p, plt a b -> plt c d -> SweepLoop.within (Seg a b) u -> SweepLoop.within (Seg c d) v -> overlap u v ->
  plt a p -> plt p b -> on_segment p (Seg a b) -> on_segment p (Seg c d) -> overlap (Seg a b) (Seg c d).
Proof.
  intros a b c d u v p L1 L2 W1 W2 (x & y & Nxy & X1 & X2 & Y1 & Y2) K1 K2 P1 P2.
  assert (Hon : forall q, on_segment q u \/ on_segment q v -> exists t, q = lerp x y t).
  { intros q [H|H]; [exact (on_line _ _ _ _ Nxy X1 Y1 H)|exact (on_line _ _ _ _ Nxy X2 Y2 H)]. }
  assert (Hc : forall q r w, (on_segment q u \/ on_segment q v) -> (on_segment r u \/ on_segment r v) -> (on_segment w u \/ on_segment w v) -> cross q r w = 0).
  { intros q r w Hq Hr Hw. destruct (Hon q Hq) as (t1 & ->), (Hon r Hr) as (t2 & ->), (Hon w Hw) as (t3 & ->). unfold cross, lerp. cbn [px py]. ring. }
  pose proof (W1 _ (on_segment_start (Seg a b))) as A. pose proof (W1 _ (on_segment_end (Seg a b))) as B.
  pose proof (W2 _ (on_segment_start (Seg c d))) as C. pose proof (W2 _ (on_segment_end (Seg c d))) as D. cbn [s_start s_end] in A, B, C, D.
  pose proof P2 as P2'. apply on_segment_lex in P2'; [|exact L2]. destruct P2' as (_ & P3 & P4).
  apply ple_lt_eq in P4. destruct P4 as [P4|P4].
  - destruct (plt_total b d) as [J|J].
    + exists p, b. split; [exact (plt_neq _ _ K2)|]. split; [exact P1|]. split; [exact P2|]. split; [exact (on_segment_end (Seg a b))|].
      apply on_segment_lex; [exact L2|]. split; [apply Hc; tauto|]. split; [|apply plt_ple; exact J].
      exact (ple_trans _ _ _ P3 (plt_ple _ _ K2)).
    + exists p, d. split; [exact (plt_neq _ _ P4)|]. split; [exact P1|]. split; [exact P2|]. split; [|exact (on_segment_end (Seg c d))].
      apply on_segment_lex; [exact L1|]. split; [apply Hc; tauto|]. split; [|apply ple_lt_eq; destruct J as [J|J]; [right; congruence|left; exact J]].
      apply plt_ple. exact (plt_trans _ _ _ K1 P4).
  - subst p. destruct (plt_total a c) as [J|J].
    + exists c, d. split; [exact (plt_neq _ _ L2)|]. split; [|split; [exact (on_segment_start (Seg c d))|split; [exact P1|exact (on_segment_end (Seg c d))]]].
      apply on_segment_lex; [exact L1|]. split; [apply Hc; tauto|]. split; [apply plt_ple; exact J|]. apply plt_ple. exact (plt_trans _ _ _ L2 K2).
    + exists a, d. split; [exact (plt_neq _ _ K1)|]. split; [exact (on_segment_start (Seg a b))|]. split; [|split; [exact P1|exact P2]].
      apply on_segment_lex; [exact L2|]. split; [apply Hc; tauto|]. split; [|apply plt_ple; exact K1].
      apply ple_lt_eq. destruct J as [J|J]; [right; congruence|left; exact J].
Qed.

(** ** Pieces are parts of the segments between their nodes *)
Section Held.
Variable ss : list segment.
Hypothesis HP : Forall proper ss.

Definition part (t : segment) : Prop :=
  (exists sg, In sg ss /\ SweepLoop.within t sg) /\ node ss (s_start t) /\ node ss (s_end t).
Record held (s : state) : Prop := {
  h_sane : sane s;
  h_part : forall i, (i < length (lefts s))%nat -> part (seg_of s i)
}.
Lemma held_start : forall s i, held s -> (i < length (lefts s))%nat -> node ss (l_start (lft s i)).
Proof. intros s i H Hi. exact (proj1 (proj2 (h_part s H i Hi))). Qed.
Lemma held_end : forall s i, held s -> (i < length (lefts s))%nat -> node ss (end_of s i).
Proof. intros s i H Hi. exact (proj2 (proj2 (h_part s H i Hi))). Qed.
Lemma held_meet : forall s i j p, held s -> (i < length (lefts s))%nat -> (j < length (lefts s))%nat ->
  common (seg_of s i) (seg_of s j) p -> ~ overlap (seg_of s i) (seg_of s j) -> node ss p.
Proof.
  intros s i j p H Hi Hj (P1 & P2) No. destruct (h_part s H i Hi) as ((u & Hu & W1) & N1 & N2). destruct (h_part s H j Hj) as ((v & Hv & W2) & _).
  cbn [seg_of s_start s_end] in N1, N2. pose proof HP as HP'. rewrite Forall_forall in HP'. destruct (overlap_dec u v (HP' u Hu) (HP' v Hv)) as [O|O].
  - destruct (pt_eqb_spec p (l_start (lft s i))) as [->|M1]; [exact N1|]. destruct (pt_eqb_spec p (end_of s i)) as [->|M2]; [exact N2|].
    destruct (inside_up _ _ p (sn_up s (h_sane s H) i Hi) (conj P1 (conj M1 M2))) as (K1 & K2).
    exfalso. apply No. apply (parts_overlap _ _ _ _ u v p); try assumption; apply (sn_up s (h_sane s H)); assumption.
  - right. exists u, v. repeat split; try assumption; [exact (W1 p P1)|exact (W2 p P2)].
Qed.
Lemma held_erase : forall s s1, erase s1 = erase s -> held s -> held s1.
Proof.
  intros s s1 E H. constructor; [exact (sane_erase s s1 E (h_sane s H))|]. intros i Hi. rewrite (erase_len s s1 E) in Hi.
  rewrite (erase_seg s s1 i E). exact (h_part s H i Hi).
Qed.
Lemma sub_within : forall a b c d u, plt a b -> plt c d -> on_segment c (Seg a b) -> on_segment d (Seg a b) -> SweepLoop.within (Seg a b) u -> SweepLoop.within (Seg c d) u.
Proof.
  intros a b c d u L1 L2 C D W p Hp. apply W. apply on_segment_lex in Hp; [|exact L2]. destruct Hp as (E & K1 & K2).
  apply on_segment_lex in C; [|exact L1]. apply on_segment_lex in D; [|exact L1]. destruct C as (C0 & C1 & C2), D as (D0 & D1 & D2).
  assert (Hp : on_segment p (Seg c d)) by (apply on_segment_lex; [exact L2|tauto]).
  apply on_segment_lex; [exact L1|]. split; [|split; [exact (ple_trans _ _ _ C1 K1)|exact (ple_trans _ _ _ K2 D2)]].
  destruct Hp as (t & _ & _ & Ex & Ey). cbn [s_start s_end] in Ex, Ey. unfold cross in *. rewrite Ex, Ey.
  replace ((px b - px a) * (py c + t * (py d - py c) - py a) - (py b - py a) * (px c + t * (px d - px c) - px a))
    with ((1 - t) * ((px b - px a) * (py c - py a) - (py b - py a) * (px c - px a)) + t * ((px b - px a) * (py d - py a) - (py b - py a) * (px d - px a))) by ring.
  rewrite C0, D0. ring.
Qed.
Lemma held_divide : forall s i p, held s -> node ss p -> (i < length (lefts s))%nat -> inside_segment p (seg_of s i) ->
  plt (l_start (lft s i)) p -> plt p (end_of s i) -> held (divide i p s).
Proof.
  intros s i p H HN Hi Hp L1 L2. pose proof (h_sane s H) as Hs. pose proof (sn_wf s Hs) as Hw. constructor; [exact (sane_divide s i p Hs Hi Hp L1 L2)|].
  destruct (h_part s H i Hi) as ((u & Hu & W) & N1 & N2). cbn [seg_of s_start s_end] in N1, N2. pose proof (sn_up s Hs i Hi) as Up.
  rewrite (div_lefts s i p Hi). intros j Hj. destruct (Nat.eq_dec j (length (lefts s))) as [->|Nj].
  - unfold seg_of. rewrite (div_lft_tail s i p Hi), (div_end_tail s i p Hw Hi). cbn [l_start]. split; [|split; [exact HN|exact N2]].
    exists u. split; [exact Hu|]. apply (sub_within (l_start (lft s i)) (end_of s i)); [exact Up|exact L2|exact (proj1 Hp)|exact (on_segment_end (seg_of s i))|exact W].
  - destruct (Nat.eq_dec j i) as [->|Nij].
    + unfold seg_of. rewrite (div_lft_i s i p Hw Hi), (div_end_i s i p Hw Hi). cbn [set_right l_start]. split; [|split; [exact N1|exact HN]].
      exists u. split; [exact Hu|]. apply (sub_within (l_start (lft s i)) (end_of s i)); [exact Up|exact L1|exact (on_segment_start (seg_of s i))|exact (proj1 Hp)|exact W].
    + rewrite (divided_seg_other s i p j Hs Hi) by lia. apply (h_part s H). lia.
Qed.
Lemma held_cuts : forall s s', cuts (node ss) s s' -> held s -> held s'.
Proof.
  intros s s' H. induction H as [s|s s1 s' E H IH|s i p s' HN Hi Hp L1 L2 H IH]; intro J.
  - exact J.
  - exact (IH (held_erase s s1 E J)).
  - exact (IH (held_divide s i p J HN Hi Hp L1 L2)).
Qed.

(** ** Number of divisions to be done *)
Definition spots : list point :=
  flat_map (fun s => [s_start s; s_end s]) ss ++ flat_map (fun s => map (segments_intersection s) ss) ss.
Lemma spots_length : length spots = (2 * length ss + length ss * length ss)%nat.
Proof.
  unfold spots. rewrite app_length, (flat_map_const _ _ _ 2), (flat_map_const _ _ _ (length ss)).
  - lia.
  - intros x _. apply map_length.
  - intros x _. reflexivity.
Qed.
Lemma node_spot : forall p, node ss p -> In p spots.
Proof.
  pose proof HP as HP'. rewrite Forall_forall in HP'. intros p [(s & Hs & E)|(s & t & Hs & Ht & Ps & Pt & No)]; apply in_or_app.
  - left. apply in_flat_map. exists s. split; [exact Hs|]. destruct E as [->| ->]; cbn; tauto.
  - right. apply in_flat_map. exists s. split; [exact Hs|]. apply in_map_iff. exists t. split; [|exact Ht].
    apply segments_intersection_unique; [exact (HP' s Hs)|exact (HP' t Ht)|exact (conj Ps Pt)|].
    intros q (Q1 & Q2). destruct (pt_eqb_spec q p) as [E|E]; [exact E|]. exfalso. apply No. exists q, p. tauto.
Qed.
Definition between (a b x : point) : bool := pt_ltb a x && pt_ltb x b.
Definition count (a b : point) (l : list point) : nat := length (filter (between a b) l).
Lemma count_split : forall a b p l, plt a p -> plt p b -> (count a p l + count p b l + (if existsb (pt_eqb p) l then 1 else 0) <= count a b l)%nat.
Proof.
  intros a b p l L1 L2. unfold count. induction l as [|x l IH]; [cbn; lia|]. cbn [filter existsb].
  assert (K : ((if between a p x then 1 else 0) + (if between p b x then 1 else 0) + (if pt_eqb p x then 1 else 0) <= (if between a b x then 1 else 0))%nat).
  { unfold between. destruct (pt_ltb_spec a x) as [A|A], (pt_ltb_spec x p) as [B|B], (pt_ltb_spec p x) as [C|C], (pt_ltb_spec x b) as [D|D], (pt_eqb_spec p x) as [F|F]; cbn; try lia; exfalso;
      try (subst x; first [exact (plt_irrefl _ B)|exact (plt_irrefl _ C)|contradiction]);
      try exact (plt_irrefl _ (plt_trans _ _ _ B C));
      try (apply D; exact (plt_trans _ _ _ B L2)); try (apply A; exact (plt_trans _ _ _ L1 C)). }
  destruct (between a p x), (between p b x), (between a b x), (pt_eqb p x); cbn [length orb] in *; destruct (existsb (pt_eqb p) l); lia.
Qed.
Lemma count_at : forall a b p l, plt a p -> plt p b -> In p l -> (count a p l + count p b l + 1 <= count a b l)%nat.
Proof.
  intros a b p l L1 L2 H. pose proof (count_split a b p l L1 L2) as K.
  assert (E : existsb (pt_eqb p) l = true) by (apply existsb_exists; exists p; split; [exact H|]; destruct (pt_eqb_spec p p); [reflexivity|contradiction]).
  rewrite E in K. exact K.
Qed.
Definition rest (s : state) (i : nat) : nat := count (l_start (lft s i)) (end_of s i) spots.
Definition work (s : state) : nat := (3 * list_sum (map (rest s) (seq 0 (length (lefts s)))) + length (queue s))%nat.
Lemma sum_change : forall (f g : nat -> nat) i n a, (a <= i < a + n)%nat -> (forall j, j <> i -> (a <= j < a + n)%nat -> f j = g j) ->
  (list_sum (map f (seq a n)) + g i = list_sum (map g (seq a n)) + f i)%nat.
Proof.
  intros f g i n. induction n as [|n IH]; intros a Hi H; [lia|]. cbn [seq map list_sum fold_right]. destruct (Nat.eq_dec a i) as [->|Na].
  - assert (E : map f (seq (S i) n) = map g (seq (S i) n)) by (apply map_ext_in; intros j Hj; apply in_seq in Hj; apply H; lia).
    change (f i + list_sum (map f (seq (S i) n)) + g i = g i + list_sum (map g (seq (S i) n)) + f i)%nat. rewrite E. lia.
  - specialize (IH (S a)). change (f a + list_sum (map f (seq (S a) n)) + g i = g a + list_sum (map g (seq (S a) n)) + f i)%nat.
    rewrite (H a) by lia. rewrite <- Nat.add_assoc, IH; [lia|lia|]. intros j Nj Hj. apply H; lia.
Qed.
Lemma work_divide : forall s i p, held s -> node ss p -> (i < length (lefts s))%nat -> plt (l_start (lft s i)) p -> plt p (end_of s i) ->
  (work (divide i p s) <= work s)%nat.
Proof.
  intros s i p H HN Hi L1 L2. pose proof (sn_wf s (h_sane s H)) as Hw. unfold work. rewrite (div_lefts s i p Hi).
  rewrite seq_S, map_app, list_sum_app. cbn [Nat.add map list_sum fold_right queue divide length].
  set (n := length (lefts s)) in *.
  pose proof (sum_change (rest (divide i p s)) (rest s) i n 0 ltac:(lia)) as K.
  assert (K' : forall j, j <> i -> (0 <= j < 0 + n)%nat -> rest (divide i p s) j = rest s j).
  { intros j Nj Hj. unfold rest. rewrite (div_lft_other s i p j), (div_end_other s i p Hw Hi j); [reflexivity|lia|exact Nj|fold n; lia|exact Nj]. }
  specialize (K K'). clear K'.
  assert (E1 : rest (divide i p s) i = count (l_start (lft s i)) p spots) by (unfold rest; rewrite (div_lft_i s i p Hw Hi), (div_end_i s i p Hw Hi); reflexivity).
  assert (E2 : rest (divide i p s) n = count p (end_of s i) spots) by (unfold rest, n; rewrite (div_lft_tail s i p Hi), (div_end_tail s i p Hw Hi); reflexivity).
  pose proof (count_at _ _ p spots L1 L2 (node_spot p HN)) as J. unfold rest at 2 in K. rewrite E1 in K.
  change (3 * (list_sum (map (rest (divide i p s)) (seq 0 n)) + (rest (divide i p s) n + 0)) + S (S (length (queue s))) <= 3 * list_sum (map (rest s) (seq 0 n)) + length (queue s))%nat.
  rewrite E2. lia.
Qed.
Lemma work_erase : forall s s1, erase s1 = erase s -> work s1 = work s.
Proof.
  intros s s1 E. unfold work. rewrite (erase_len s s1 E). rewrite (f_equal queue E : queue s1 = queue s). f_equal. f_equal. f_equal.
  apply map_ext. intro i. unfold rest. rewrite (f_equal s_start (erase_seg s s1 i E) : l_start (lft s1 i) = l_start (lft s i)).
  rewrite (f_equal s_end (erase_seg s s1 i E) : end_of s1 i = end_of s i). reflexivity.
Qed.
Lemma work_cuts : forall s s', cuts (node ss) s s' -> held s -> (work s' <= work s)%nat.
Proof.
  intros s s' H. induction H as [s|s s1 s' E H IH|s i p s' HN Hi Hp L1 L2 H IH]; intro J.
  - lia.
  - rewrite <- (work_erase s s1 E). exact (IH (held_erase s s1 E J)).
  - pose proof (work_divide s i p J HN Hi L1 L2). specialize (IH (held_divide s i p J HN Hi Hp L1 L2)). lia.
Qed.

(** ** Steps of the sweep *)
Lemma detect_nary_ok : forall b i s, exists s' f, detect Nary b i s = Ok (s', f).
Proof.
  intros b i s. unfold detect. cbv zeta.
  destruct (segments_relation (seg_of s b) (seg_of s i));
    repeat match goal with |- context [let '(_, _) := if ?c then _ else _ in _] => destruct c end;
    repeat match goal with |- context [if ?c then Ok _ else _] => destruct c end;
    repeat match goal with |- exists _ _, Ok (?x, ?y) = _ => exists x, y; reflexivity end.
Qed.
Definition advanced (s s' : state) : Prop := held s' /\ (work s' <= work s)%nat.
Lemma advanced_trans : forall s s1 s2, advanced s s1 -> advanced s1 s2 -> advanced s s2.
Proof. intros s s1 s2 (_ & A) (H & B). split; [exact H|lia]. Qed.
Lemma detect_advanced : forall b i s, held s -> (b < length (lefts s))%nat -> (i < length (lefts s))%nat ->
  exists s', detect_only Nary b i s = Ok s' /\ advanced s s' /\ (length (lefts s) <= length (lefts s'))%nat.
Proof.
  intros b i s H Hb Hi. destruct (detect_nary_ok b i s) as (s' & f & E). exists s'. unfold detect_only. rewrite E. split; [reflexivity|].
  pose proof (h_sane s H) as Hs.
  assert (C : cuts (node ss) s s').
  { apply (detect_cuts (node ss) Nary b i s s' f Hs Hb Hi); [exact (held_start s b H Hb)|exact (held_end s b H Hb)|exact (held_start s i H Hi)|exact (held_end s i H Hi)| |exact E].
    intros p P1 P2. exact (held_meet s b i p H Hb Hi P1 P2). }
  split; [split; [exact (held_cuts s s' C H)|exact (work_cuts s s' C H)]|]. exact (proj1 (proj2 (path_sane _ _ (cuts_path _ _ _ C) Hs))).
Qed.
Lemma held_line : forall s l, sane (with_line s l) -> held s -> held (with_line s l).
Proof. intros s l Hl H. constructor; [exact Hl|exact (h_part s H)]. Qed.
Lemma add_advanced : forall o n i s, held s -> (i < length (lefts s))%nat -> exists s', add_left Nary o n i s = Ok s' /\ advanced s s'.
Proof.
  intros o n i s H Hi. unfold add_left. destruct (add_sane Nary (o_shape o (2 * n)) i s (h_sane s H) Hi) as (l & El & Hl).
  rewrite El. pose proof (held_line s l Hl H) as H1. set (s1 := with_line s l) in *.
  assert (A1 : advanced s s1) by (split; [exact H1|exact (Nat.le_refl _)]). assert (Hi1 : (i < length (lefts s1))%nat) by exact Hi.
  assert (K : exists s2, detect_above Nary i (line_above Nary (o_shape o (2 * n + 1)) s1 i) s1 = Ok s2 /\ advanced s1 s2 /\ (length (lefts s1) <= length (lefts s2))%nat).
  { destruct (line_above Nary (o_shape o (2 * n + 1)) s1 i) as [a|] eqn:Ea; cbn [detect_above].
    - exact (detect_advanced i a s1 H1 Hi1 (above_range Nary _ s1 i a Hl Ea)).
    - exists s1. split; [reflexivity|]. split; [split; [exact H1|lia]|lia]. }
  destruct K as (s2 & E2 & A2 & L2). cbv zeta. rewrite E2. cbn [bind_res].
  destruct (line_below Nary (o_shape o (2 * n + 1)) s1 i) as [b|] eqn:Eb; cbn [detect_below].
  - pose proof (below_range Nary _ s1 i b Hl Eb) as Rb. destruct (detect_advanced b i s2 (proj1 A2)) as (s3 & E3 & A3 & _); [lia|lia|].
    exists s3. split; [exact E3|]. exact (advanced_trans _ _ _ A1 (advanced_trans _ _ _ A2 A3)).
  - exists s2. split; [reflexivity|]. exact (advanced_trans _ _ _ A1 A2).
Qed.
Lemma remove_advanced : forall o n i s, held s -> line_contains Nary (o_shape o (2 * n)) s i = true ->
  exists s', remove_left Nary o n i s = Ok s' /\ advanced s s' /\ (length (lefts s) <= length (lefts s'))%nat.
Proof.
  intros o n i s H Hc. unfold remove_left.
  destruct (line_remove Nary (o_shape o (2 * n)) i s) as [s1|] eqn:E.
  - destruct (remove_sane Nary _ i s s1 (h_sane s H) E) as (l & -> & Hl). pose proof (held_line s l Hl H) as H1.
    assert (A1 : advanced s (with_line s l)) by (split; [exact H1|exact (Nat.le_refl _)]).
    destruct (line_above Nary (o_shape o (2 * n)) s i) as [a|] eqn:Ea; [|exists (with_line s l); split; [reflexivity|split; [exact A1|exact (Nat.le_refl _)]]].
    destruct (line_below Nary (o_shape o (2 * n)) s i) as [b|] eqn:Eb; [|exists (with_line s l); split; [reflexivity|split; [exact A1|exact (Nat.le_refl _)]]].
    destruct (detect_advanced b a (with_line s l) H1 (below_range Nary _ s i b (h_sane s H) Eb) (above_range Nary _ s i a (h_sane s H) Ea)) as (s2 & E2 & A2 & L2).
    exists s2. split; [exact E2|]. split; [exact (advanced_trans _ _ _ A1 A2)|exact L2].
  - exfalso. unfold line_remove in E. unfold line_contains in Hc. destruct (search Nary (o_shape o (2 * n)) s i) as (f & m). cbn in Hc. rewrite Hc in E. discriminate E.
Qed.
Definition directed (t : segment) : Prop := part t /\ plt (s_start t) (s_end t).
Lemma process_advanced : forall o n ev s, held s -> in_range s ev ->
  exists s' out, process_nary o n ev s = Ok (s', out) /\ advanced s s' /\ Forall directed out.
Proof.
  intros o n [i|r] s H Hr; cbn [process_nary].
  - destruct (line_contains Nary (o_shape o (2 * n)) s i).
    + exists s, []. split; [reflexivity|]. split; [split; [exact H|lia]|constructor].
    + destruct (add_advanced o n i s H Hr) as (s' & E & A). rewrite E. cbn [bind_res]. exists s', []. split; [reflexivity|]. split; [exact A|constructor].
  - cbv zeta. pose proof (w_rl s (sn_wf s (h_sane s H)) r Hr) as (Hi & _). set (i := r_left (rgt s r)) in *.
    destruct (line_contains Nary (o_shape o (2 * n)) s i) eqn:Hc.
    + destruct (remove_advanced o n i s H Hc) as (s' & E & A & L). rewrite E. cbn [bind_res]. exists s', [seg_of s' i]. split; [reflexivity|]. split; [exact A|].
      assert (Hi' : (i < length (lefts s'))%nat) by lia.
      constructor; [|constructor]. split; [exact (h_part s' (proj1 A) i Hi')|exact (sn_up s' (h_sane s' (proj1 A)) i Hi')].
    + exists s, []. split; [reflexivity|]. split; [split; [exact H|lia]|constructor].
Qed.

(** ** The least event *)
Lemma least_exists : forall (l q : list event) (ltb : event -> event -> bool), l <> [] ->
  (forall a b, In a q -> In b q -> ltb a b = true -> ltb b a = false) ->
  (forall a b c, In a q -> In b q -> In c q -> ltb a b = false -> ltb b c = false -> ltb a c = false) ->
  incl l q -> exists e, In e l /\ forall e', In e' l -> e' = e \/ ltb e' e = false.
Proof.
  intros l q ltb Hl H1 H2. induction l as [|x l IH]; [contradiction|]. intro Hq. destruct l as [|y l].
  - exists x. split; [left; reflexivity|]. intros e' [<-|[]]. left. reflexivity.
  - destruct IH as (e & He & Hm); [discriminate|intros z Hz; apply Hq; right; exact Hz|].
    destruct (ltb x e) eqn:E.
    + exists x. split; [left; reflexivity|]. intros e' [<-|K]; [left; reflexivity|]. right.
      assert (Qx : In x q) by (apply Hq; left; reflexivity). assert (Qe : In e q) by (apply Hq; right; exact He). assert (Qe' : In e' q) by (apply Hq; right; exact K).
      destruct (Hm e' K) as [->|J]; [exact (H1 x e Qx Qe E)|]. apply (H2 e' e x Qe' Qe Qx J). exact (H1 x e Qx Qe E).
    + exists e. split; [right; exact He|]. intros e' [<-|K]; [right; exact E|exact (Hm e' K)].
Qed.
Lemma filter_less : forall (A : Type) (f : A -> bool) l x, In x l -> f x = false -> (length (filter f l) < length l)%nat.
Proof.
  intros A f l x H E. induction l as [|y l IH]; [destruct H|]. cbn [filter]. destruct H as [<-|H].
  - rewrite E. pose proof (filter_short A f l). cbn. lia.
  - specialize (IH H). destruct (f y); cbn; lia.
Qed.
Lemma event_eqb_same : forall e, event_eqb e e = true.
Proof. intros [i|i]; cbn; apply Nat.eqb_refl. Qed.
Lemma pop_advanced : forall pick s, held s -> queue s <> [] ->
  exists ev s1, pop Nary pick s = Ok (ev, s1) /\ held s1 /\ in_range s1 ev /\ (work s1 < work s)%nat.
Proof.
  intros pick s H Hq. pose proof (h_sane s H) as Hs. destruct (sane_ranked s Hs) as (R1 & R2).
  destruct (least_exists (queue s) (queue s) (key_ltb Nary s) Hq R1 R2 (incl_refl _)) as (e & He & Hm).
  assert (Hl : In e (least (key_ltb Nary s) (queue s))).
  { unfold least. apply filter_In. split; [exact He|]. apply forallb_forall. intros e' K. destruct (Hm e' K) as [->|J].
    - rewrite event_eqb_same. reflexivity.
    - rewrite J. apply Bool.orb_true_r. }
  destruct (pop Nary pick s) as [(ev, s1)|err] eqn:E.
  - destruct (pop_sane _ _ _ _ _ E Hs) as (K1 & K2). exists ev, s1. split; [reflexivity|].
    unfold pop in E. destruct (least (key_ltb Nary s) (queue s)) as [|e0 l] eqn:El; [discriminate E|].
    assert (Hx : In (nth (pick (e0 :: l) mod length (e0 :: l)) (e0 :: l) e0) (queue s)).
    { assert (J : In (nth (pick (e0 :: l) mod length (e0 :: l)) (e0 :: l) e0) (least (key_ltb Nary s) (queue s))).
      { rewrite El. apply nth_In. apply Nat.mod_upper_bound. discriminate. }
      unfold least in J. apply filter_In in J. exact (proj1 J). }
    set (x := nth (pick (e0 :: l) mod length (e0 :: l)) (e0 :: l) e0) in *. clearbody x.
    injection E as <- <-. split; [constructor; [exact K1|exact (h_part s H)]|]. split; [exact K2|].
    unfold work. cbn [lefts queue].
    assert (J : (length (filter (fun e' => negb (event_eqb e' x)) (queue s)) < length (queue s))%nat).
    { apply (filter_less _ _ _ x Hx). rewrite event_eqb_same. reflexivity. }
    change (3 * list_sum (map (rest s) (seq 0 (length (lefts s)))) + length (filter (fun e' => negb (event_eqb e' x)) (queue s))
      < 3 * list_sum (map (rest s) (seq 0 (length (lefts s)))) + length (queue s))%nat. lia.
  - exfalso. unfold pop in E. destruct (least (key_ltb Nary s) (queue s)) as [|e0 l]; [destruct Hl|discriminate E].
Qed.
Lemma run_total : forall o fuel n s acc, held s -> (work s < fuel)%nat -> Forall directed acc ->
  exists out, run_nary o fuel n s acc = Ok out /\ Forall directed out.
Proof.
  intros o fuel. induction fuel as [|f IH]; intros n s acc H Hw Ha; [lia|]. cbn [run_nary].
  destruct (queue s) as [|e q] eqn:Eq; [exists acc; split; [reflexivity|exact Ha]|].
  destruct (pop_advanced (o_pick o n) s H) as (ev & s1 & E1 & H1 & R1 & W1); [rewrite Eq; discriminate|]. rewrite E1. cbn [bind_res].
  destruct (process_advanced o n ev s1 H1 R1) as (s2 & out & E2 & (H2 & W2) & F). rewrite E2. cbn [bind_res].
  apply IH; [exact H2|lia|]. apply Forall_app. split; [exact Ha|exact F].
Qed.
Lemma start_held : held (register false ss empty_state) /\ (work (register false ss empty_state) < enough (length ss))%nat.
Proof.
  pose proof (filled_register false ss [] empty_state filled_empty) as Hf. cbn [app] in Hf. set (s := register false ss empty_state) in *.
  pose proof (f_lefts _ _ Hf) as Hl. rewrite map_length in Hl.
  assert (Hn : forall i, (i < length (lefts s))%nat -> exists sg, In sg ss /\ seg_of s i = Seg (seg_lo sg) (seg_hi sg)).
  { intros i Hi. rewrite Hl in Hi. destruct (nth_error ss i) as [sg|] eqn:E; [|apply nth_error_None in E; lia].
    exists sg. split; [exact (nth_error_In _ _ E)|]. apply (init_seg _ _ Hf i false sg). rewrite nth_error_map, E. reflexivity. }
  split.
  - constructor.
    + apply (filled_tag_sane [] ss); [exact Hf|constructor|exact HP].
    + intros i Hi. destruct (Hn i Hi) as (sg & Hsg & E). rewrite E. split.
      * exists sg. split; [exact Hsg|]. intros p K. apply on_segment_norm. exact K.
      * cbn [s_start s_end]. unfold seg_lo, seg_hi. split; left; exists sg; (split; [exact Hsg|]); destruct (pt_ltb (s_end sg) (s_start sg)) eqn:K;
          rewrite ?K; first [left; reflexivity|right; reflexivity|idtac].
  - unfold work. rewrite Hl.
    assert (Q : (length (queue s) <= 2 * length ss)%nat).
    { pose proof (f_nodup _ _ Hf) as Nd.
      assert (I : incl (queue s) (map EL (seq 0 (length ss)) ++ map ER (seq 0 (length ss)))).
      { intros ev K. apply (f_queue _ _ Hf) in K. apply in_or_app. destruct ev as [i|r]; cbn in K; rewrite ?(f_lefts _ _ Hf), ?(f_rights _ _ Hf), map_length in K.
        - left. apply in_map. apply in_seq. lia.
        - right. apply in_map. apply in_seq. lia. }
      pose proof (NoDup_incl_length Nd I) as K. rewrite app_length, !map_length, seq_length in K. lia. }
    assert (R : (list_sum (map (rest s) (seq 0 (length ss))) <= length ss * (2 * length ss + length ss * length ss))%nat).
    { rewrite <- (seq_length (length ss) 0) at 2. generalize (seq 0 (length ss)). intro l. induction l as [|x l IH]; [cbn; lia|].
      cbn [map length]. change (rest s x + list_sum (map (rest s) l) <= S (length l) * (2 * length ss + length ss * length ss))%nat.
      pose proof (filter_short _ (between (l_start (lft s x)) (end_of s x)) spots) as K. rewrite spots_length in K. unfold rest at 1. unfold count. lia. }
    unfold enough. lia.
Qed.
End Held.

Lemma group_members : forall l k, In k (map fst (group_by seg_eqb (fun x => x) l)) -> In k l.
Proof.
  intros l k H. apply in_map_iff in H. destruct H as ((k', g) & <- & H). cbn [fst].
  apply group_by_keys in H; [|exact seg_eqb_spec]. destruct H as (Ng & H). destruct g as [|x g]; [contradiction|]. destruct (H x (or_introl eq_refl)) as (<- & K). exact K.
Qed.
(** Merging of any segments. *)
Theorem merge_sound : forall o ss, Forall proper ss -> exists g, segments_to_multisegment o ss = Ok g
  /\ canonical g /\ points_of g = [] /\ polygons_of g = []
  /\ StronglySorted (fun a b => ~ segment_lt b a) (segments_of g)
  /\ forall t, In t (segments_of g) -> (exists s, In s ss /\ forall p, on_segment p t -> on_segment p s)
       /\ plt (s_start t) (s_end t) /\ node ss (s_start t) /\ node ss (s_end t).
Proof.
  intros o ss HP. destruct (start_held ss HP) as (H & W). destruct (run_total ss HP o _ 0 _ [] H W (Forall_nil _)) as (out & E & F).
  unfold segments_to_multisegment, merge_segments, merge_list. rewrite E. cbn [bind_res].
  set (result := sort_by seg_ltb (map fst (group_by seg_eqb (fun x => x) out))). exists (unpack_segments result). split; [reflexivity|].
  destruct (unpack_segments_canonical result) as (C1 & C2 & C3 & C4). split; [exact C1|]. split; [exact C2|]. split; [exact C4|]. rewrite C3.
  split; [apply sorted_segments|]. intros t Ht. apply sort_by_in in Ht. apply group_members in Ht. rewrite Forall_forall in F.
  destruct (F t Ht) as ((A & B & C) & D). tauto.
Qed.
Theorem merge_points : forall o ss, Forall proper ss -> exists g, segments_to_multisegment o ss = Ok g
  /\ points_of g = [] /\ polygons_of g = [] /\ forall p, in_geometry p g -> on_segments p ss.
Proof.
  intros o ss HP. destruct (merge_sound o ss HP) as (g & E & C & P & Q & _ & H). exists g. split; [exact E|]. split; [exact P|]. split; [exact Q|].
  intros p [K|(t & Ht & Kp)].
  - rewrite P in K. destruct K.
  - destruct (H t Ht) as ((s & Hs & W) & _). exists s. split; [exact Hs|exact (W p Kp)].
Qed.
