(** Sweeps with labelled events go as the linear one: labels influence neither
    the order of events nor divisions.
    Proof support only, no part of /repo is modelled here. *)
From Coq Require Import Permutation.
From Verif Require Import QcTac Geom Spec GeomFacts Relation PairFacts SweepGeo SweepInv SweepSteps Sweep SweepCmp SweepLink Linear SweepRun SweepLoop Labelled NaryThms.

Definition strip (e : left_event) : left_event :=
  LeftEvent (l_start e) (l_right e) (l_first e) (l_interior e) false false NONE false None.
Definition erase (s : state) : state := State (map strip (lefts s)) (rights s) (queue s) (line s).

Lemma lft_erase : forall s i, lft (erase s) i = strip (lft s i).
Proof. intros s i. unfold lft, erase. cbn [lefts]. change no_left with (strip no_left) at 1. apply map_nth. Qed.
Lemma len_erase : forall s, length (lefts (erase s)) = length (lefts s).
Proof. intro s. apply map_length. Qed.
Lemma end_erase : forall s i, end_of (erase s) i = end_of s i.
Proof. intros s i. unfold end_of. rewrite lft_erase. reflexivity. Qed.
Lemma seg_erase : forall s i, seg_of (erase s) i = seg_of s i.
Proof. intros s i. unfold seg_of. rewrite end_erase, lft_erase. reflexivity. Qed.
Lemma start_erase : forall s ev, Sweep.ev_start (erase s) ev = Sweep.ev_start s ev.
Proof. intros s [i|r]; cbn [Sweep.ev_start]; [rewrite lft_erase|]; reflexivity. Qed.
Lemma ev_end_erase : forall s ev, ev_end (erase s) ev = ev_end s ev.
Proof. intros s [i|r]; cbn [ev_end]; [apply end_erase|rewrite lft_erase; reflexivity]. Qed.
Lemma first_erase : forall s ev, ev_first (erase s) ev = ev_first s ev.
Proof. intros s [i|r]; unfold ev_first; cbn [left_of]; rewrite lft_erase; reflexivity. Qed.
Lemma strip_strip : forall e, strip (strip e) = strip e.
Proof. reflexivity. Qed.
Lemma erase_line : forall s l, erase (with_line s l) = with_line (erase s) l.
Proof. reflexivity. Qed.
Lemma erase_unqueue : forall s ev, erase (unqueue ev s) = unqueue ev (erase s).
Proof. reflexivity. Qed.

Lemma map_update : forall A B (f : A -> B) g h, (forall x, f (g x) = h (f x)) -> forall l i, map f (update l i g) = update (map f l) i h.
Proof. intros A B f g h H. induction l as [|x l IH]; intros [|i]; cbn; try reflexivity; [rewrite H; reflexivity|rewrite IH; reflexivity]. Qed.
Lemma map_update_id : forall A B (f : A -> B) g, (forall x, f (g x) = f x) -> forall l i, map f (update l i g) = map f l.
Proof. intros A B f g H. induction l as [|x l IH]; intros [|i]; cbn; try reflexivity; [rewrite H; reflexivity|rewrite IH; reflexivity]. Qed.
Lemma nth_update : forall A (l : list A) i j f d, (i < length l)%nat -> nth j (update l i f) d = if Nat.eqb j i then f (nth i l d) else nth j l d.
Proof.
  intros A l i j f d H. destruct (Nat.eqb_spec j i) as [->|N]; [apply nth_update_same; exact H|apply nth_update_other; congruence].
Qed.

Lemma erase_update_left : forall i f s, (forall x, strip (f x) = strip x) -> erase (update_left i f s) = erase s.
Proof. intros i f s H. unfold erase, update_left. cbn. rewrite map_update_id by exact H. reflexivity. Qed.
Lemma erase_compute : forall h r i b s, erase (compute_fields h r i b s) = erase s.
Proof.
  intros h r i b s. unfold compute_fields. rewrite erase_update_left by reflexivity. destruct b as [b|]; [|reflexivity].
  destruct h; rewrite ?erase_update_left by reflexivity; reflexivity.
Qed.
Lemma erase_divide : forall i p s, erase (divide i p s) = divide i p (erase s).
Proof.
  intros i p s. unfold divide. rewrite lft_erase, len_erase. unfold erase. cbn. rewrite map_app.
  rewrite (map_update _ _ strip (set_right (length (rights s))) (set_right (length (rights s)))) by reflexivity. reflexivity.
Qed.
Lemma erase_overlap : forall k b i s, erase (mark_overlap k b i s) = erase s.
Proof. intros k b i s. destruct k; try reflexivity. unfold erase, mark_overlap. cbn. rewrite !map_update_id by reflexivity. reflexivity. Qed.
Lemma erase_kind : forall k b i s, erase (mark_kind k b i s) = erase s.
Proof. intros k b i s. destruct k; try reflexivity. unfold erase, mark_kind. cbn. rewrite !map_update_id by reflexivity. reflexivity. Qed.

Section Kind.
Variable k : kind.
Hypothesis Hk : k <> Nary.

Lemma key_erase : forall s a b, key_ltb k s a b = key_ltb Linear (erase s) a b.
Proof.
  intros s a b. assert (E : key_ltb k = binary_key_ltb) by (destruct k; try reflexivity; contradiction). rewrite E. cbn [key_ltb].
  unfold binary_key_ltb. rewrite !start_erase, !ev_end_erase, first_erase. reflexivity.
Qed.
Lemma line_erase : forall s a b, line_ltb k s a b = line_ltb Linear (erase s) a b.
Proof.
  intros s a b. assert (E : line_ltb k = binary_line_ltb) by (destruct k; try reflexivity; contradiction). rewrite E. cbn [line_ltb].
  unfold binary_line_ltb. rewrite !lft_erase, !end_erase. reflexivity.
Qed.
Lemma pop_erase : forall s pick ev, pop Linear pick (erase s) = Ok (ev, unqueue ev (erase s)) -> pop k pick s = Ok (ev, unqueue ev s).
Proof.
  intros s pick ev. unfold pop.
  assert (E : least (key_ltb k s) (queue s) = least (key_ltb Linear (erase s)) (queue (erase s))).
  { unfold least. cbn [queue erase]. apply filter_ext. intro a. induction (queue s) as [|b q IH]; [reflexivity|]. cbn [forallb]. rewrite key_erase. f_equal. exact IH. }
  rewrite <- E. destruct (least (key_ltb k s) (queue s)) as [|e0 l]; [discriminate|]. cbn zeta. generalize (nth (pick (e0 :: l) mod length (e0 :: l)) (e0 :: l) e0). intros x H. assert (Ex : x = ev) by congruence. rewrite Ex. reflexivity.
Qed.
Lemma search_erase : forall shape s i, search k shape s i = search Linear shape (erase s) i.
Proof. intros shape s i. unfold search. cbn [line erase]. apply locate_ext. exact (line_erase s). Qed.
Lemma contains_erase : forall shape s i, line_contains k shape s i = line_contains Linear shape (erase s) i.
Proof. intros shape s i. unfold line_contains. rewrite search_erase. reflexivity. Qed.
Lemma above_erase : forall shape s i, line_above k shape s i = line_above Linear shape (erase s) i.
Proof. intros shape s i. unfold line_above. rewrite search_erase. reflexivity. Qed.
Lemma below_erase : forall shape s i, line_below k shape s i = line_below Linear shape (erase s) i.
Proof. intros shape s i. unfold line_below. rewrite search_erase. reflexivity. Qed.
Lemma add_erase : forall shape i s l, line_add Linear shape i (erase s) = with_line (erase s) l -> line_add k shape i s = with_line s l.
Proof.
  intros shape i s l. unfold line_add. rewrite search_erase. destruct (search _ _ _ _) as ([|], n); intro H.
  - apply (f_equal line) in H. cbn in H. rewrite <- H. destruct s; reflexivity.
  - apply (f_equal line) in H. cbn in H. rewrite <- H. reflexivity.
Qed.
Lemma remove_erase : forall shape i s l, line_remove Linear shape i (erase s) = Ok (with_line (erase s) l) -> line_remove k shape i s = Ok (with_line s l).
Proof.
  intros shape i s l. unfold line_remove. rewrite search_erase. destruct (search _ _ _ _) as ([|], n); intro H; [|discriminate H].
  injection H as H. rewrite <- H. reflexivity.
Qed.

Lemma rgt_erase : forall s r, rgt (erase s) r = rgt s r.
Proof. reflexivity. Qed.
Lemma seg_mark_overlap : forall b i s, rights (mark_overlap k b i s) = rights s.
Proof. intros. destruct k; reflexivity. Qed.
Lemma seg_mark_kind : forall b i s, rights (mark_kind k b i s) = rights s.
Proof. intros. destruct k; reflexivity. Qed.

Lemma detect_erase : forall b i s, detect Linear b i (erase s) =
  match detect k b i s with Ok (s', f) => Ok (erase s', f) | Err x => Err x end.
Proof.
  intros b i s. unfold detect. rewrite !seg_erase, !end_erase, !lft_erase. cbn [l_start l_first strip].
  assert (En : match k with Nary => false | _ => Bool.eqb (l_first (lft s b)) (l_first (lft s i)) end = Bool.eqb (l_first (lft s b)) (l_first (lft s i))) by (destruct k; try reflexivity; contradiction).
  rewrite En. cbn [mark_overlap mark_kind].
  set (s1 := mark_overlap k b i s).
  assert (E1 : erase s = erase s1) by (symmetry; apply erase_overlap).
  assert (Ov : (if Bool.eqb (l_first (lft s b)) (l_first (lft s i)) then Err ValueError else
      let starts_equal := pt_eqb (l_start (lft s b)) (l_start (lft s i)) in
      let '(start_min, start_max) := if key_ltb Linear (erase s) (EL i) (EL b) then (i, b) else (b, i) in
      let ends_equal := pt_eqb (end_of s i) (end_of s b) in
      let '(end_min, end_max) := if key_ltb Linear (erase s) (ER (l_right (lft (erase s) i))) (ER (l_right (lft (erase s) b)))
         then (l_right (lft (erase s) i), l_right (lft (erase s) b)) else (l_right (lft (erase s) b), l_right (lft (erase s) i)) in
      let end_min_start := r_start (rgt (erase s) end_min) in
      let end_max_left := r_left (rgt (erase s) end_max) in
      let start_max_start := l_start (lft (erase s) start_max) in
      if starts_equal then Ok (if ends_equal then erase s else divide end_max_left end_min_start (erase s), true)
      else if ends_equal then Ok (divide start_min start_max_start (erase s), false)
      else if Nat.eqb start_min end_max_left then Ok (divide start_min start_max_start (divide start_min end_min_start (erase s)), false)
      else Ok (divide start_min start_max_start (divide start_max end_min_start (erase s)), false))
    = match (if Bool.eqb (l_first (lft s b)) (l_first (lft s i)) then Err ValueError else
      let starts_equal := pt_eqb (l_start (lft s b)) (l_start (lft s i)) in
      let '(start_min, start_max) := if key_ltb k s1 (EL i) (EL b) then (i, b) else (b, i) in
      let ends_equal := pt_eqb (end_of s i) (end_of s b) in
      let '(end_min, end_max) := if key_ltb k s1 (ER (l_right (lft s1 i))) (ER (l_right (lft s1 b)))
         then (l_right (lft s1 i), l_right (lft s1 b)) else (l_right (lft s1 b), l_right (lft s1 i)) in
      let end_min_start := r_start (rgt s1 end_min) in
      let end_max_left := r_left (rgt s1 end_max) in
      let start_max_start := l_start (lft s1 start_max) in
      if starts_equal then let s2 := mark_kind k b i s1 in Ok (if ends_equal then s2 else divide end_max_left end_min_start s2, true)
      else if ends_equal then Ok (divide start_min start_max_start s1, false)
      else if Nat.eqb start_min end_max_left then Ok (divide start_min start_max_start (divide start_min end_min_start s1), false)
      else Ok (divide start_min start_max_start (divide start_max end_min_start s1), false)) with Ok (s', f) => Ok (erase s', f) | Err x => Err x end).
  { destruct (Bool.eqb _ _); [reflexivity|]. cbn zeta. rewrite !key_erase.
    assert (Er : forall j, l_right (lft (erase s) j) = l_right (lft s1 j)).
    { intro j. rewrite E1, lft_erase. reflexivity. }
    rewrite !Er, E1. destruct (key_ltb Linear (erase s1) (EL i) (EL b)); destruct (key_ltb Linear (erase s1) (ER _) (ER _));
      destruct (pt_eqb (l_start _) _); destruct (pt_eqb (end_of _ _) _);
      rewrite ?lft_erase; cbn [l_start strip]; rewrite ?rgt_erase;
      try (rewrite ?erase_divide, ?erase_kind; reflexivity);
      destruct (Nat.eqb _ _); rewrite ?erase_divide; reflexivity. }
  destruct (segments_relation _ _); try exact Ov; try reflexivity.
  - destruct (negb _ && negb _); [|reflexivity]. cbn zeta.
    destruct (negb _ && negb _), (negb _ && negb _); rewrite ?erase_divide; reflexivity.
  - destruct (negb _ && negb _); [|reflexivity]. cbn zeta.
    destruct (negb _ && negb _), (negb _ && negb _); rewrite ?erase_divide; reflexivity.
Qed.
End Kind.

(** ** Labels *)
(** What is known of overlaps: the field used by the kind of events. *)
Definition ovl (k : kind) (e : left_event) : overlap_kind :=
  match k with Mixed => if l_is_overlap e then SAME_ORIENTATION else NONE | _ => l_kind e end.
(** What a pair of overlapping pieces is marked with. *)
Definition pair_kind (k : kind) (a b : left_event) : overlap_kind :=
  match k with
  | Mixed => SAME_ORIENTATION
  | _ => if Bool.eqb (l_interior b) (l_interior a) then SAME_ORIENTATION else DIFFERENT_ORIENTATION
  end.
Definition kept (a b : left_event) : Prop :=
  l_first a = l_first b /\ l_interior a = l_interior b /\ l_other a = l_other b /\ l_result a = l_result b /\ l_below a = l_below b.
Lemma kept_refl : forall a, kept a a.
Proof. intro a. repeat split. Qed.
Lemma kept_trans : forall a b c, kept a b -> kept b c -> kept a c.
Proof. intros a b c (H1 & H2 & H3 & H4 & H5) (J1 & J2 & J3 & J4 & J5). repeat split; congruence. Qed.

Definition unchanged (a b : left_event) : Prop := kept a b /\ l_is_overlap a = l_is_overlap b /\ l_kind a = l_kind b.
Lemma unchanged_refl : forall a, unchanged a a.
Proof. intro a. repeat split. Qed.
Lemma unchanged_trans : forall a b c, unchanged a b -> unchanged b c -> unchanged a c.
Proof. intros a b c (H1 & H2 & H3) (J1 & J2 & J3). split; [exact (kept_trans _ _ _ H1 J1)|split; congruence]. Qed.
Lemma unchanged_ovl : forall k a b, unchanged a b -> ovl k a = ovl k b.
Proof. intros k a b (_ & H & J). unfold ovl. rewrite H, J. reflexivity. Qed.

(** Divisions keep labels, new events have none. *)
Record spread (s s' : state) : Prop := {
  sp_len : (length (lefts s) <= length (lefts s'))%nat;
  sp_old : forall j, (j < length (lefts s))%nat -> unchanged (lft s' j) (lft s j);
  sp_new : forall j, (length (lefts s) <= j)%nat -> lft s' j = strip (lft s' j)
}.
Lemma out_of_range : forall s j, (length (lefts s) <= j)%nat -> lft s j = no_left.
Proof. intros s j H. unfold lft. apply nth_overflow. exact H. Qed.
Lemma spread_refl : forall s, spread s s.
Proof. intros s. constructor; [lia|intros; apply unchanged_refl|]. intros j H. rewrite (out_of_range s j H). reflexivity. Qed.
Lemma divide_lft : forall i p s j, (j < length (lefts s))%nat ->
  lft (divide i p s) j = if Nat.eqb j i then set_right (length (rights s)) (lft s j) else lft s j.
Proof.
  intros i p s j H. unfold divide, lft. cbn [lefts]. rewrite app_nth1 by (rewrite update_length; exact H).
  destruct (Nat.eqb_spec j i) as [->|N]; [apply nth_update_same; exact H|apply nth_update_other; congruence].
Qed.
Lemma divide_len : forall i p s, length (lefts (divide i p s)) = S (length (lefts s)).
Proof. intros. unfold divide. cbn. rewrite app_length, update_length. cbn. lia. Qed.
Lemma divide_spread : forall i p s s', spread s s' -> spread s (divide i p s').
Proof.
  intros i p s s' [L O N]. constructor.
  - rewrite divide_len. lia.
  - intros j H. rewrite divide_lft by lia. destruct (Nat.eqb j i); [|apply O; exact H].
    apply (unchanged_trans _ (lft s' j)); [repeat split|apply O; exact H].
  - intros j H. destruct (Nat.lt_ge_cases j (length (lefts s'))) as [J|J].
    + rewrite divide_lft by exact J. destruct (Nat.eqb j i); [|apply N; exact H]. rewrite (N j H). reflexivity.
    + unfold divide, lft. cbn [lefts]. rewrite app_nth2 by (rewrite update_length; exact J). rewrite update_length.
      destruct (j - length (lefts s'))%nat as [|[|m]]; reflexivity.
Qed.

(** What detection does with labels. *)
Record marked (k : kind) (b i : nat) (f : bool) (s s' : state) : Prop := {
  mk_len : (length (lefts s) <= length (lefts s'))%nat;
  mk_old : forall j, (j < length (lefts s))%nat -> kept (lft s' j) (lft s j);
  mk_new : forall j, (length (lefts s) <= j)%nat -> lft s' j = strip (lft s' j);
  mk_others : forall j, (j < length (lefts s))%nat -> j <> b -> j <> i -> unchanged (lft s' j) (lft s j);
  mk_pair : f = true -> ovl k (lft s' b) = pair_kind k (lft s b) (lft s i) /\ ovl k (lft s' i) = pair_kind k (lft s b) (lft s i);
  mk_kind : f = false -> forall j, (j < length (lefts s))%nat -> l_kind (lft s' j) = l_kind (lft s j)
}.
Lemma marked_spread : forall k b i f s s1 s2, length (lefts s1) = length (lefts s) ->
  (forall j, (j < length (lefts s))%nat -> kept (lft s1 j) (lft s j)) ->
  (forall j, (j < length (lefts s))%nat -> j <> b -> j <> i -> unchanged (lft s1 j) (lft s j)) ->
  (f = true -> ovl k (lft s1 b) = pair_kind k (lft s b) (lft s i) /\ ovl k (lft s1 i) = pair_kind k (lft s b) (lft s i)) ->
  (f = false -> forall j, l_kind (lft s1 j) = l_kind (lft s j)) ->
  (b < length (lefts s))%nat -> (i < length (lefts s))%nat -> spread s1 s2 -> marked k b i f s s2.
Proof.
  intros k b i f s s1 s2 L K X Y Z Hb Hi [L2 O2 N2]. rewrite L in *. constructor.
  - exact L2.
  - intros j H. apply (kept_trans _ (lft s1 j)); [apply O2; exact H|apply K; exact H].
  - exact N2.
  - intros j H H1 H2. apply (unchanged_trans _ (lft s1 j)); [apply O2; exact H|apply X; assumption].
  - intro F. rewrite (unchanged_ovl k _ _ (O2 b Hb)), (unchanged_ovl k _ _ (O2 i Hi)). exact (Y F).
  - intros F j H. destruct (O2 j H) as (_ & _ & E). rewrite E. exact (Z F j).
Qed.

Lemma mark_lft : forall b i m s j, (b < length (lefts s))%nat -> (i < length (lefts s))%nat ->
  lft (State (update (update (lefts s) b m) i m) (rights s) (queue s) (line s)) j
  = if Nat.eqb j i then (if Nat.eqb i b then m (m (lft s i)) else m (lft s i)) else if Nat.eqb j b then m (lft s b) else lft s j.
Proof.
  intros b i m s j Hb Hi. unfold lft. cbn [lefts]. rewrite nth_update by (rewrite update_length; exact Hi). rewrite !nth_update by exact Hb.
  destruct (Nat.eqb j i); [|reflexivity]. destruct (Nat.eqb_spec i b) as [->|]; reflexivity.
Qed.

Lemma detect_marked : forall k b i s s' f, k = Mixed \/ k = Shaped -> (b < length (lefts s))%nat -> (i < length (lefts s))%nat -> b <> i ->
  detect k b i s = Ok (s', f) -> marked k b i f s s'.
Proof.
  intros k b i s s' f Hk Hb Hi Hn. unfold detect.
  set (s1 := mark_overlap k b i s).
  assert (L1 : length (lefts s1) = length (lefts s)) by (unfold s1; destruct k; cbn; rewrite ?update_length; reflexivity).
  assert (S1 : forall j, kept (lft s1 j) (lft s j)).
  { intro j. unfold s1. destruct Hk as [->| ->]; [|apply kept_refl]. unfold mark_overlap. rewrite mark_lft by assumption.
    destruct (Nat.eqb_spec j i) as [->|]; [destruct (Nat.eqb i b); repeat split|]. destruct (Nat.eqb_spec j b) as [->|]; repeat split. }
  assert (X1 : forall j, j <> b -> j <> i -> unchanged (lft s1 j) (lft s j)).
  { intros j H1 H2. unfold s1. destruct Hk as [->| ->]; [|apply unchanged_refl]. unfold mark_overlap. rewrite mark_lft by assumption.
    destruct (Nat.eqb_spec j i) as [|_]; [contradiction|]. destruct (Nat.eqb_spec j b) as [|_]; [contradiction|]. apply unchanged_refl. }
  assert (Kd1 : forall j, l_kind (lft s1 j) = l_kind (lft s j)).
  { intro j. unfold s1. destruct Hk as [->| ->]; [|reflexivity]. unfold mark_overlap. rewrite mark_lft by assumption.
    destruct (Nat.eqb_spec j i) as [->|]; [destruct (Nat.eqb i b); reflexivity|]. destruct (Nat.eqb_spec j b) as [->|]; reflexivity. }
  set (s2 := mark_kind k b i s1).
  assert (L2 : length (lefts s2) = length (lefts s)) by (unfold s2; destruct k; try exact L1; unfold mark_kind; cbn [lefts]; rewrite !update_length; exact L1).
  assert (S2 : forall j, kept (lft s2 j) (lft s j)).
  { intro j. apply (kept_trans _ (lft s1 j)); [|apply S1]. unfold s2. destruct Hk as [->| ->]; [apply kept_refl|]. unfold mark_kind. rewrite mark_lft by (rewrite L1; assumption).
    destruct (Nat.eqb_spec j i) as [->|]; [destruct (Nat.eqb i b); repeat split|]. destruct (Nat.eqb_spec j b) as [->|]; repeat split. }
  assert (X2 : forall j, j <> b -> j <> i -> unchanged (lft s2 j) (lft s j)).
  { intros j H1 H2. apply (unchanged_trans _ (lft s1 j)); [|apply X1; assumption]. unfold s2. destruct Hk as [->| ->]; [apply unchanged_refl|].
    unfold mark_kind. rewrite mark_lft by (rewrite L1; assumption).
    destruct (Nat.eqb_spec j i) as [|_]; [contradiction|]. destruct (Nat.eqb_spec j b) as [|_]; [contradiction|]. apply unchanged_refl. }
  assert (Y2 : ovl k (lft s2 b) = pair_kind k (lft s b) (lft s i) /\ ovl k (lft s2 i) = pair_kind k (lft s b) (lft s i)).
  { unfold s2. destruct Hk as [E|E]; subst k.
    - cbn [mark_kind ovl pair_kind]. unfold s1, mark_overlap. rewrite !mark_lft by assumption. rewrite !Nat.eqb_refl.
      destruct (Nat.eqb_spec b i) as [|_]; [contradiction|]. destruct (Nat.eqb_spec i b) as [E|_]; [symmetry in E; contradiction|]. split; reflexivity.
    - change s1 with s. unfold mark_kind, ovl, pair_kind. rewrite !mark_lft by assumption. rewrite !Nat.eqb_refl.
      destruct (Nat.eqb_spec b i) as [|_]; [contradiction|]. destruct (Nat.eqb_spec i b) as [E|_]; [symmetry in E; contradiction|]. split; reflexivity. }
  assert (M0 : forall s'', spread s s'' -> marked k b i false s s'').
  { intros s'' H. apply (marked_spread k b i false s s); try assumption; [reflexivity|intros; apply kept_refl|intros; apply unchanged_refl|discriminate|reflexivity]. }
  assert (M1 : forall s'', spread s1 s'' -> marked k b i false s s'').
  { intros s'' H. apply (marked_spread k b i false s s1); try assumption; [intros; apply S1|intros; apply X1; assumption|discriminate|intros _; exact Kd1]. }
  assert (M2 : forall s'', spread s2 s'' -> marked k b i true s s'').
  { intros s'' H. apply (marked_spread k b i true s s2); try assumption; [intros; apply S2|intros; apply X2; assumption|intros _; exact Y2|discriminate]. }
  clearbody s1 s2.
  destruct (segments_relation _ _).
  all: try (intro H; injection H as <- <-; apply M0, spread_refl).
  1,2: destruct (negb _ && negb _); [|intro H; injection H as <- <-; apply M0, spread_refl]; cbn zeta;
    intro H; injection H as <- <-; apply M0; destruct (negb _ && negb _), (negb _ && negb _); repeat apply divide_spread; apply spread_refl.
  all: destruct (match k with Nary => false | _ => _ end); [discriminate|]; cbn zeta;
    destruct (key_ltb k s1 (EL i) (EL b)); destruct (key_ltb k s1 (ER _) (ER _)); destruct (pt_eqb (l_start (lft s b)) _);
    destruct (pt_eqb (end_of s i) (end_of s b)); try destruct (Nat.eqb _ _); intro H; injection H as <- <-;
    first [apply M2; repeat apply divide_spread; apply spread_refl | apply M1; repeat apply divide_spread; apply spread_refl].
Qed.

(** Computation of fields. *)
Section Fields.
Variables (k : kind) (result : left_event -> bool) (rf : bool -> bool -> overlap_kind -> bool).
Hypothesis Hrf : forall e, result e = rf (l_first e) (l_other e) (ovl k e).

Definition other_of (s : state) (i : nat) (below : option nat) : bool :=
  match below with
  | None => l_other (lft s i)
  | Some b => if Bool.eqb (l_first (lft s i)) (l_first (lft s b)) then l_other (lft s b) else l_interior (lft s b)
  end.
Lemma update_left_lft : forall i f s j, (i < length (lefts s))%nat -> lft (update_left i f s) j = if Nat.eqb j i then f (lft s i) else lft s j.
Proof. intros i f s j H. unfold update_left, lft. cbn [lefts]. apply nth_update. exact H. Qed.
Lemma update_left_len : forall i f s, length (lefts (update_left i f s)) = length (lefts s).
Proof. intros. unfold update_left. cbn. apply update_length. Qed.
Lemma compute_len : forall h i b s, length (lefts (compute_fields h result i b s)) = length (lefts s).
Proof. intros h i b s. unfold compute_fields. rewrite update_left_len. destruct b as [b|]; [|reflexivity]. destruct h; rewrite ?update_left_len; reflexivity. Qed.
Lemma compute_others : forall h i b s j, (i < length (lefts s))%nat -> j <> i -> lft (compute_fields h result i b s) j = lft s j.
Proof.
  intros h i b s j H N. apply Nat.eqb_neq in N. unfold compute_fields. destruct b as [b|]; [destruct h|];
    repeat (rewrite update_left_lft by (rewrite ?update_left_len; exact H); rewrite N); reflexivity.
Qed.
Lemma compute_self : forall h i b s, (i < length (lefts s))%nat ->
  let e := lft (compute_fields h result i b s) i in
  l_first e = l_first (lft s i) /\ l_interior e = l_interior (lft s i) /\ ovl k e = ovl k (lft s i)
  /\ l_other e = other_of s i b /\ l_result e = rf (l_first (lft s i)) (other_of s i b) (ovl k (lft s i)).
Proof.
  intros h i b s H. cbn zeta. unfold compute_fields. rewrite update_left_lft; [|destruct b as [b|]; [destruct h|]; rewrite ?update_left_len; exact H].
  rewrite Nat.eqb_refl. cbn [l_first l_interior l_other l_result set_result].
  assert (O : forall e x, ovl k (set_result x e) = ovl k e) by (intros; destruct k; reflexivity).
  assert (O2 : forall e x, ovl k (set_other x e) = ovl k e) by (intros; destruct k; reflexivity).
  assert (O3 : forall e x, ovl k (set_below x e) = ovl k e) by (intros; destruct k; reflexivity).
  rewrite O, Hrf. destruct b as [b|]; [destruct h|]; cbn [other_of];
    repeat (rewrite (update_left_lft i _ _ i) by (rewrite ?update_left_len; exact H); rewrite Nat.eqb_refl);
    rewrite ?O3, ?O2; cbn [set_below set_other l_first l_interior l_other]; repeat split.
Qed.
Lemma compute_kind : forall h i b s, (i < length (lefts s))%nat -> l_kind (lft (compute_fields h result i b s) i) = l_kind (lft s i).
Proof.
  intros h i b s H. unfold compute_fields. rewrite update_left_lft by (destruct b as [b|]; [destruct h|]; rewrite ?update_left_len; exact H).
  rewrite Nat.eqb_refl. cbn [set_result l_kind]. destruct b as [b|]; [destruct h|]; 
    repeat (rewrite (update_left_lft i _ _ i) by (rewrite ?update_left_len; exact H); rewrite Nat.eqb_refl); reflexivity.
Qed.
Lemma compute_below : forall h i b s, (i < length (lefts s))%nat -> b <> Some i ->
  l_below (lft (compute_fields h result i b s) i) =
    match b with
    | Some z => if h then (if negb (result (lft s z)) || is_vertical s z then l_below (lft s z) else Some z) else l_below (lft s i)
    | None => l_below (lft s i)
    end.
Proof.
  intros h i b s H N. unfold compute_fields. rewrite update_left_lft by (destruct b as [b|]; [destruct h|]; rewrite ?update_left_len; exact H).
  rewrite Nat.eqb_refl. cbn [set_result l_below]. destruct b as [b|]; [destruct h|];
    repeat (rewrite (update_left_lft i _ _ i) by (rewrite ?update_left_len; exact H); rewrite Nat.eqb_refl); try reflexivity.
  cbn [set_below l_below]. assert (E : Nat.eqb b i = false) by (apply Nat.eqb_neq; congruence).
  assert (V : forall o, is_vertical (update_left i (set_other o) s) b = is_vertical s b).
  { intro o. unfold is_vertical, end_of. rewrite !update_left_lft by exact H. rewrite E. reflexivity. }
  rewrite V, !update_left_lft by exact H. rewrite E. reflexivity.
Qed.
End Fields.
