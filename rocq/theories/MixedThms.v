(** Sweeps of mixed.py.  Proof support only, no part of /repo is modelled here. *)
From Coq Require Import Permutation Sorted.
From Verif Require Import QcTac Geom Spec SpecShape GeomFacts SortFacts Toward Bounding BoundingThms Relation PairFacts SweepGeo SweepInv SweepSteps Sweep SweepCmp SweepLink Linear SweepRun SweepLoop SweepStart SweepEnd SelectThms LinearMeaning LinearThms LinearComplete Contour Labelled Filter Mixed Parity Counting Erase Flow Labels LabelEnd Outline Classify.

Lemma event_eq_dec : forall a b : event, {a = b} + {a <> b}.
Proof. decide equality; apply Nat.eq_dec. Qed.
Notation edges_of ps := (flat_map polygon_oriented_edges ps).
Definition mixed_rf (wanted first other : bool) (o : overlap_kind) : bool :=
  first && Bool.eqb wanted (other || match o with NONE => false | _ => true end).
Definition mixed_test (wanted : bool) : left_event -> bool := if wanted then mixed_in else mixed_out.
Lemma mixed_test_rf : forall wanted ev, mixed_test wanted ev = mixed_rf wanted (l_first ev) (l_other ev) (ovl Mixed ev).
Proof.
  intros wanted ev. unfold mixed_test, mixed_rf, mixed_in, mixed_out, mixed_outside, ovl.
  destruct wanted, (l_first ev), (l_other ev), (l_is_overlap ev); reflexivity.
Qed.
Lemma filled_mixed : forall segs ps, filled (tag segs (edges_of ps)) (fill_mixed segs ps).
Proof.
  intros segs ps. unfold fill_mixed, tag.
  assert (G : forall ps l s, filled l s -> filled (l ++ map (pair false) (edges_of ps)) (fold_left (fun s p => register false (polygon_oriented_edges p) s) ps s)).
  { clear. induction ps as [|p ps IH]; intros l s H; cbn [flat_map fold_left]; [cbn; rewrite app_nil_r; exact H|].
    rewrite map_app, app_assoc. apply IH. apply filled_register. exact H. }
  apply G. change (map (pair true) segs) with ([] ++ map (pair true) segs). apply filled_register. apply filled_empty.
Qed.
Lemma tag_length : forall segs ps, length (tag segs (edges_of ps)) = (length segs + edges_count ps)%nat.
Proof. intros. unfold tag, edges_count. rewrite app_length, !map_length. reflexivity. Qed.
Lemma by_right : by_left out_right.
Proof. intros [i|r] s s' E; cbn in *; [reflexivity|]. rewrite E. reflexivity. Qed.
Lemma by_lefts : by_left out_left.
Proof. intros [i|r] s s' E; reflexivity. Qed.
Lemma by_all : by_left out_all.
Proof. intros ev s s' E; reflexivity. Qed.

Record mixed_swept (first second : list segment) (x_max : option Qc) (wanted : bool) (s : state) (out : list nat) (pl : list event) : Prop := {
  ms_swept : swept (tag first second) x_max s out;
  ms_processed : processed x_max s out pl;
  ms_out : out = map (left_of s) (filter (fun ev => negb (is_left ev)) pl);
  ms_piece : forall i, settled s out i -> In (EL i) pl -> l_first (lft s i) = true ->
    exists w, l_result (lft s i) = Bool.eqb wanted w
    /\ (w = true -> forall p, on_segment p (seg_of s i) -> in_region second p)
    /\ (w = false -> (forall p, on_segment p (seg_of s i) -> ~ interior second p)
                     /\ (forall p, inside_segment p (seg_of s i) -> ~ in_region second p));
  ms_second : forall i, In (EL i) pl -> l_first (lft s i) = false -> l_result (lft s i) = false
}.

Theorem mixed_sweep : forall first ps x_max wanted, non_overlapping first -> region_boundary (edges_of ps) ->
  exists s out pl, mixed_swept first (edges_of ps) x_max wanted s out pl
  /\ forall o put, by_left put -> sweep_mixed put (mixed_test wanted) o (beyond x_max) first ps = Ok (s, flat_map (fun ev => put ev s) pl).
Proof.
  intros first ps x_max wanted N1 RB. set (l := tag first (edges_of ps)). set (s0 := fill_mixed first ps).
  pose proof (filled_mixed first ps) as Hf. fold l s0 in Hf.
  assert (Hl : lawful l) by (apply lawful_operands; [exact N1|exact (proj1 RB)]).
  assert (E2 : operand l false = edges_of ps) by (unfold l; apply (operand_tag first (edges_of ps) false)).
  assert (Hreg : forall b, negb b = true -> region_boundary (operand l b)) by (intros [|] H; [discriminate H|rewrite E2; exact RB]).
  destruct (labelled_anyhow l s0 Hf Hl x_max Mixed false (mixed_test wanted) (mixed_rf wanted) (or_introl eq_refl) (mixed_test_rf wanted) negb Hreg)
    as (s & out & pl & Hsw & Hpr & Hla & Ho & Hrun & _).
  exists s, out, pl. split.
  - constructor; [exact Hsw|exact Hpr|exact Ho| |].
    + intros i Hs He Ef.
      assert (Hb : negb (negb (l_first (lft s i))) = true) by (rewrite Ef; reflexivity).
      assert (Er : operand l (negb (l_first (lft s i))) = edges_of ps) by (rewrite Ef; exact E2).
      pose proof (result_label l s0 x_max Mixed (mixed_rf wanted) negb s out pl Hsw Hpr Hla i Hs He) as HR.
      assert (Off : forall p, on_segment p (seg_of s i) -> ~ on_segments p (edges_of ps) -> inside (edges_of ps) p = l_other (lft s i)).
      { intros p Pp Hn. pose proof (other_off l s0 Hf Hl x_max Mixed (mixed_rf wanted) negb Hreg s out pl Hsw Hla i p Hs He Hb Pp) as K.
        rewrite Er in K. exact (K Hn). }
      destruct HR as [(Al & HR)|(j & Hp & HR)].
      * exists (l_other (lft s i)). split; [rewrite HR; unfold mixed_rf; rewrite Ef, Bool.orb_false_r; reflexivity|].
        assert (In_ : forall p, inside_segment p (seg_of s i) -> ~ on_segments p (edges_of ps)).
        { intros p Pp K. destruct (settled_rest l x_max s out Hsw i p Hs Pp) as (j & Hj); [rewrite Er; exact K|exact (Al j Hj)]. }
        split.
        -- intros Ew p Pp. destruct (on_segments_dec p (edges_of ps)) as [K|K]; [left; exact K|right]. rewrite (Off p Pp K). exact Ew.
        -- intro Ew. split; [intros p Pp (K1 & K2); rewrite (Off p Pp K1) in K2; congruence|].
           intros p Pp [K|K]; [exact (In_ p Pp K)|]. rewrite (Off p (proj1 Pp) (In_ p Pp)) in K. congruence.
      * exists true. split; [rewrite HR; unfold mixed_rf, pair_kind; rewrite Ef, Bool.orb_true_r; reflexivity|]. split; [|discriminate].
        intros _ p Pp. left. pose proof (paired_rest l x_max s out Hsw i j p Hp Pp) as K. rewrite Er in K. exact K.
    + intros i He Ef. destruct (fit_for s0 s (Pt 0 0)) as (e & P & F & _). destruct (la_result _ _ _ _ _ _ _ (Hla e P F) i He) as (K & (EK & _) & _).
      rewrite EK, Ef. reflexivity.
  - intros o put Hput. unfold sweep_mixed. rewrite <- tag_length. apply (Hrun o put); [exact Hput|].
    intros m ev s1 s2 E. unfold step_mixed. rewrite E. reflexivity.
Qed.

Section Meaning.
Variables (first second : list segment) (x_max : option Qc) (wanted : bool) (s : state) (out : list nat) (pl : list event).
Hypothesis H : mixed_swept first second x_max wanted s out pl.
Notation side i := (l_first (lft s i)).
Notation n := (length (lefts s)).
Let Hsw := ms_swept _ _ _ _ _ _ _ H.
Let Hpr := ms_processed _ _ _ _ _ _ _ H.

(** Picked pieces. *)
Definition picked (i : nat) : Prop := In (EL i) pl /\ side i = true /\ l_result (lft s i) = true.
Lemma picked_right : resulting (s, flat_map (fun ev => out_right ev s) pl) = map (seg_of s) (filter (fun i => l_result (lft s i)) out).
Proof.
  unfold resulting. assert (E : flat_map (fun ev => out_right ev s) pl = map EL out).
  { rewrite (ms_out _ _ _ _ _ _ _ H). generalize pl. intro m. induction m as [|[i|r] m IH]; [reflexivity|exact IH|]. cbn. f_equal. exact IH. }
  rewrite E. generalize out. intro m. induction m as [|i m IH]; [reflexivity|]. cbn. destruct (l_result (lft s i)); [cbn; f_equal; exact IH|exact IH].
Qed.
Definition lefts_in (m : list event) : list nat := flat_map (fun ev => match ev with EL i => [i] | ER _ => [] end) m.
Lemma lefts_in_in : forall m i, In i (lefts_in m) <-> In (EL i) m.
Proof.
  intros m i. unfold lefts_in. rewrite in_flat_map. split.
  - intros ([j|r] & Hj & K); [|destruct K]. destruct K as [E|[]]. subst j. exact Hj.
  - intro K. exists (EL i). split; [exact K|left; reflexivity].
Qed.
Lemma lefts_in_nodup : forall m, NoDup m -> NoDup (lefts_in m).
Proof.
  intro m. induction m as [|[i|r] m IH]; intro N; [constructor| |]; apply NoDup_cons_iff in N; destruct N as (N1 & N2).
  - cbn. constructor; [|exact (IH N2)]. intro K. apply N1. apply lefts_in_in. exact K.
  - exact (IH N2).
Qed.
Lemma picked_left : forall m, resulting (s, filter is_left m) = map (seg_of s) (filter (fun i => l_result (lft s i)) (lefts_in m)).
Proof.
  intro m. unfold resulting. induction m as [|[i|r] m IH]; [reflexivity| |exact IH]. cbn. destruct (l_result (lft s i)); [cbn; f_equal; exact IH|exact IH].
Qed.
Lemma put_left : forall m, flat_map (fun ev => out_left ev s) m = filter is_left m.
Proof. intro m. induction m as [|[i|r] m IH]; [reflexivity| |exact IH]. cbn. f_equal. exact IH. Qed.
Lemma result_picked : forall i, In (EL i) pl -> l_result (lft s i) = true -> picked i.
Proof.
  intros i He Hr. split; [exact He|]. split; [|exact Hr]. destruct (side i) eqn:E; [reflexivity|]. rewrite (ms_second _ _ _ _ _ _ _ H i He E) in Hr. discriminate Hr.
Qed.
Lemma source_first : forall i, (i < n)%nat -> side i = true -> exists sg, In sg first /\ within (seg_of s i) sg.
Proof.
  intros i Hi E. destruct (piece_source _ _ _ _ _ Hsw i Hi) as (sg & Hg & W). rewrite E in Hg. exists sg. split; assumption.
Qed.
Lemma pl_range : forall i, In (EL i) pl -> (i < n)%nat.
Proof. intros i K. exact (pr_range _ _ _ _ Hpr _ K). Qed.

(** Pieces of an operand finished by the sweep. *)
Lemma pieces_valid : forall ids, NoDup ids -> (forall i, In i ids -> In i out /\ side i = true) -> valid_multisegment (map (seg_of s) ids).
Proof.
  intros ids N Hid.
  assert (Clean : forall i j, In i ids -> In j ids -> i <> j -> ~ overlap (seg_of s i) (seg_of s j) /\ ~ crosses (seg_of s i) (seg_of s j)).
  { intros i j Hi Hj Nij. destruct (Hid i Hi) as (Io & Ei). destruct (Hid j Hj) as (Jo & Ej).
    assert (K : forall p, inside_segment p (seg_of s i) -> ~ on_segment p (seg_of s j)).
    { intros p (Pi & N1 & N2) Pj. destruct (sw_apart _ _ _ _ Hsw i j Io (sw_range _ _ _ _ Hsw j Jo) (not_eq_sym Nij)) as [K|(_ & _ & K & _)]; [|congruence].
      destruct (K p Pi Pj) as ([J|J] & _); contradiction. }
    split.
    - intro O. destruct (overlap_inside _ _ O) as (m & M1 & (M2 & _)). exact (K m M1 M2).
    - intros (_ & m & M1 & (M2 & _)). exact (K m M1 M2). }
  split.
  - apply Forall_forall. intros k Hk. apply in_map_iff in Hk. destruct Hk as (i & <- & Hi). apply (piece_proper _ _ _ _ Hsw). exact (sw_range _ _ _ _ Hsw i (proj1 (Hid i Hi))).
  - clear Hid. induction ids as [|i ids IH]; [intros [|a] b x y _ Ea; discriminate Ea|]. apply NoDup_cons_iff in N. destruct N as (N1 & N2).
    cbn [map]. apply pairwise_cons; [exact clean_sym|]. split.
    + intros y Hy. apply in_map_iff in Hy. destruct Hy as (j & <- & Hj). apply Clean; [left; reflexivity|right; exact Hj|]. intros ->. exact (N1 Hj).
    + apply IH; [exact N2|]. intros a b Ha Hb. apply Clean; right; assumption.
Qed.

(** Next to any point of the linear operand in any direction along it there is a piece. *)
Lemma piece_toward : forall sg p q, In sg first -> p <> q -> on_segment p sg -> on_segment q sg ->
  exists i m, (i < n)%nat /\ side i = true /\ on_segment p (seg_of s i) /\ inside_segment m (seg_of s i) /\ on_segment m (Seg p q).
Proof.
  intros sg p q Hg Hpq Pp Pq.
  set (vs := flat_map (fun i => [l_start (lft s i); end_of s i]) (seq 0 n)).
  assert (Hvs : forall i, (i < n)%nat -> In (l_start (lft s i)) vs /\ In (end_of s i) vs).
  { intros i Hi. split; apply in_flat_map; exists i; (split; [apply in_seq; lia|]); [left|right; left]; reflexivity. }
  destruct (approach p q vs Hpq) as (m & Hm & Nm & Am).
  pose proof (on_convex sg p q m Pp Pq (proj1 Hm)) as M1.
  destruct (piece_at _ _ _ _ _ Hsw true sg m Hg M1) as (i & Hi & Ei & Mi & Wi). exists i, m. split; [exact Hi|]. split; [exact Ei|]. split; [|split; [|exact (proj1 Hm)]].
  - apply (Am sg _ _ (proj1 (Hvs i Hi)) (proj2 (Hvs i Hi)) Pp Pq); [| |exact Mi].
    + apply Wi. exact (on_segment_start (seg_of s i)).
    + apply Wi. exact (on_segment_end (seg_of s i)).
  - split; [exact Mi|]. split; intro E; apply Nm; rewrite E; apply (Hvs i Hi).
Qed.

(** ** Pieces out of the region, when the linear operand has been swept entirely. *)
Section Out.
Hypothesis Hw : wanted = false.
Hypothesis Hc : LinearMeaning.covers first second x_max true.
Lemma all_out : forall i, (i < n)%nat -> side i = true -> In i out.
Proof. exact (fun i Hi E => covered _ _ _ _ _ Hsw true i Hc Hi E). Qed.
Lemma out_settled : forall i, In i out -> settled s out i.
Proof. intros i Hi. split; [exact (sw_range _ _ _ _ Hsw i Hi)|left; exact Hi]. Qed.
Variable ids : list nat.
Hypothesis Hids : forall i, In i out -> In i ids.
Hypothesis Hpl : forall i, In i ids -> In (EL i) pl.
Hypothesis Hnd : NoDup ids.
Notation L := (map (seg_of s) (filter (fun i => l_result (lft s i)) ids)).
Lemma out_in : forall k, In k L <-> exists i, In i out /\ side i = true /\ l_result (lft s i) = true /\ k = seg_of s i.
Proof.
  intro k. rewrite in_map_iff. split.
  - intros (i & <- & Hi). apply filter_In in Hi. destruct Hi as (Hi & Hr). destruct (result_picked i (Hpl i Hi) Hr) as (_ & Ef & _).
    exists i. split; [exact (all_out i (pl_range i (Hpl i Hi)) Ef)|]. split; [exact Ef|]. split; [exact Hr|reflexivity].
  - intros (i & Hi & Ef & Hr & ->). exists i. split; [reflexivity|]. apply filter_In. split; [exact (Hids i Hi)|exact Hr].
Qed.
Lemma out_valid : valid_multisegment L.
Proof.
  apply pieces_valid; [apply NoDup_filter; exact Hnd|]. intros i Hi. apply filter_In in Hi. destruct Hi as (Hi & Hr).
  destruct (result_picked i (Hpl i Hi) Hr) as (_ & Ef & _). split; [exact (all_out i (pl_range i (Hpl i Hi)) Ef)|exact Ef].
Qed.
Lemma out_first : forall p, on_segments p L -> on_segments p first.
Proof.
  intros p (k & Hk & Hp). apply out_in in Hk. destruct Hk as (i & Hi & Ef & _ & ->). destruct (source_first i (sw_range _ _ _ _ Hsw i Hi) Ef) as (sg & Hg & W).
  exists sg. split; [exact Hg|exact (W p Hp)].
Qed.
Lemma out_source : forall k, In k L -> exists sg, In sg first /\ within k sg.
Proof. intros k Hk. apply out_in in Hk. destruct Hk as (i & Hi & Ef & _ & ->). exact (source_first i (sw_range _ _ _ _ Hsw i Hi) Ef). Qed.
Lemma out_outside : forall k p, In k L -> inside_segment p k -> ~ in_region second p.
Proof.
  intros k p Hk Hp. apply out_in in Hk. destruct Hk as (i & Hi & Ef & Hr & ->).
  destruct (ms_piece _ _ _ _ _ _ _ H i (out_settled i Hi) (pr_left _ _ _ _ Hpr i Hi) Ef) as (w & Ew & _ & K). rewrite Hr, Hw in Ew.
  destruct w; [discriminate Ew|]. exact (proj2 (K eq_refl) p Hp).
Qed.
Lemma out_not_interior : forall p, on_segments p L -> ~ interior second p.
Proof.
  intros p (k & Hk & Hp). apply out_in in Hk. destruct Hk as (i & Hi & Ef & Hr & ->).
  destruct (ms_piece _ _ _ _ _ _ _ H i (out_settled i Hi) (pr_left _ _ _ _ Hpr i Hi) Ef) as (w & Ew & _ & K). rewrite Hr, Hw in Ew.
  destruct w; [discriminate Ew|]. exact (proj1 (K eq_refl) p Hp).
Qed.
Lemma out_complete : forall p, on_segments p first -> ~ in_region second p -> on_segments p L.
Proof.
  intros p (sg & Hg & Hp) Hn. destruct (piece_at _ _ _ _ _ Hsw true sg p Hg Hp) as (i & Hi & Ef & Pi & _). pose proof (all_out i Hi Ef) as Io.
  exists (seg_of s i). split; [|exact Pi]. apply out_in. exists i. split; [exact Io|]. split; [exact Ef|]. split; [|reflexivity].
  destruct (ms_piece _ _ _ _ _ _ _ H i (out_settled i Io) (pr_left _ _ _ _ Hpr i Io) Ef) as (w & Ew & K & _). rewrite Ew, Hw.
  destruct w; [|reflexivity]. elim Hn. exact (K eq_refl p Pi).
Qed.
End Out.

(** ** Pieces in the region. *)
Section In.
Hypothesis Hw : wanted = true.
Variables a b : Qc.
Hypothesis Ha : forall sg p, In sg first -> on_segment p sg -> px p <= a.
Hypothesis Hb : forall sg p, In sg second -> on_segment p sg -> px p <= b.
Hypothesis Hx : x_max = Some (Qc_min a b).

Lemma region_left : forall p, in_region second p -> px p <= b.
Proof.
  intros p [(sg & Hg & Hp)|K]; [exact (Hb sg p Hg Hp)|]. rewrite inside_parity in K.
  destruct (existsb (fun sg => passes_under sg p) second) eqn:Ex.
  - apply existsb_exists in Ex. destruct Ex as (sg & Hg & E).
    assert (G : lex_ltb p (s_start sg) = true \/ lex_ltb p (s_end sg) = true).
    { unfold passes_under in E. destruct (lex_ltb p (s_start sg)); [left; reflexivity|]. destruct (lex_ltb p (s_end sg)); [right; reflexivity|]. cbn in E. discriminate E. }
    assert (G' : exists q, In q [s_start sg; s_end sg] /\ plt p q).
    { destruct G as [G|G]; apply pt_ltb_true in G; [exists (s_start sg)|exists (s_end sg)]; (split; [cbn; auto|exact G]). }
    destruct G' as (q & Hq & Hl). assert (Q : px q <= b) by (apply (Hb sg q Hg); destruct Hq as [<-|[<-|[]]]; [apply on_segment_start|apply on_segment_end]).
    destruct Hl as [Hl|(Hl & _)]; qlra.
  - rewrite parity_none in K; [discriminate K|]. intros sg Hg. destruct (passes_under sg p) eqn:E; [|reflexivity].
    assert (X : existsb (fun sg => passes_under sg p) second = true) by (apply existsb_exists; exists sg; split; assumption). congruence.
Qed.
Lemma rest_settled : forall i, (i < n)%nat -> side i = true -> settled s out i.
Proof.
  intros i Hi Ef. split; [exact Hi|]. destruct (in_dec Nat.eq_dec i out) as [K|K]; [left; exact K|right].
  destruct (sw_rest _ _ _ _ Hsw i Hi K) as (x & Ex & Hlt). rewrite Hx in Ex. injection Ex as <-.
  destruct (source_first i Hi Ef) as (sg & Hg & W). pose proof (Ha sg _ Hg (W _ (on_segment_end (seg_of s i)))) as La. cbn in La.
  intros j Hj Ej. rewrite Ef in Ej. cbn in Ej. destruct (in_dec Nat.eq_dec j out) as [J|J]; [exact J|exfalso].
  destruct (sw_rest _ _ _ _ Hsw j Hj J) as (x & Ex & Hlt'). rewrite Hx in Ex. injection Ex as <-.
  destruct (piece_source _ _ _ _ _ Hsw j Hj) as (sg' & Hg' & W'). rewrite Ej in Hg'.
  pose proof (Hb sg' _ Hg' (W' _ (on_segment_end (seg_of s j)))) as Lb. cbn in Lb.
  destruct (Qc_min_cases a b) as [(E & _)|(E & _)]; rewrite E in *; qlra.
Qed.
Lemma piece_in : forall i, In (EL i) pl -> side i = true -> l_result (lft s i) = true ->
  In i out /\ forall p, on_segment p (seg_of s i) -> in_region second p.
Proof.
  intros i He Ef Hr. pose proof (pl_range i He) as Hi. pose proof (rest_settled i Hi Ef) as Hs.
  destruct (ms_piece _ _ _ _ _ _ _ H i Hs He Ef) as (w & Ew & K & _). rewrite Hr, Hw in Ew. destruct w; [|discriminate Ew]. specialize (K eq_refl).
  split; [|exact K]. destruct (in_dec Nat.eq_dec i out) as [J|J]; [exact J|exfalso].
  destruct (sw_rest _ _ _ _ Hsw i Hi J) as (x & Ex & Hlt). rewrite Hx in Ex. injection Ex as <-.
  pose proof (region_left _ (K _ (on_segment_end (seg_of s i)))) as Lb. cbn in Lb.
  destruct (source_first i Hi Ef) as (sg & Hg & W). pose proof (Ha sg _ Hg (W _ (on_segment_end (seg_of s i)))) as La. cbn in La.
  destruct (Qc_min_cases a b) as [(E & _)|(E & _)]; rewrite E in *; qlra.
Qed.
(** A piece with an inner point in the region. *)
Lemma piece_picked : forall i m, (i < n)%nat -> side i = true -> inside_segment m (seg_of s i) -> in_region second m ->
  In i out /\ l_result (lft s i) = true.
Proof.
  intros i m Hi Ef Hm Rm. pose proof (rest_settled i Hi Ef) as Hs.
  assert (He : In (EL i) pl).
  { destruct (in_dec event_eq_dec (EL i) pl) as [K|K]; [exact K|exfalso].
    destruct (pr_rest _ _ _ _ Hpr (EL i) Hi K) as (x & Ex & Hlt). rewrite Hx in Ex. injection Ex as <-. cbn in Hlt.
    pose proof (region_left m Rm) as Lb.
    destruct (source_first i Hi Ef) as (sg & Hg & W). pose proof (Ha sg m Hg (W m (proj1 Hm))) as La.
    pose proof (sw_plt _ _ _ _ Hsw i Hi) as Hlt2.
    assert (Lm : px (l_start (lft s i)) <= px m).
    { pose proof (on_segment_box _ _ (proj1 Hm)) as (B & _). cbn in B.
      unfold Qc_min in B. destruct Hlt2 as [Hlt2|(Hlt2 & _)]; revert B; breflect; intro B; qlra. }
    destruct (Qc_min_cases a b) as [(E & _)|(E & _)]; rewrite E in *; qlra. }
  destruct (ms_piece _ _ _ _ _ _ _ H i Hs He Ef) as (w & Ew & _ & K). destruct w; [|exfalso; exact (proj2 (K eq_refl) m Hm Rm)].
  rewrite Hw in Ew. cbn in Ew. split; [exact (proj1 (piece_in i He Ef Ew))|exact Ew].
Qed.
Variable ids : list nat.
Hypothesis Hids : forall i, In i ids <-> In (EL i) pl.
Hypothesis Hnd : NoDup ids.
Notation L := (map (seg_of s) (filter (fun i => l_result (lft s i)) ids)).
Lemma in_in : forall k, In k L <-> exists i, In i out /\ side i = true /\ l_result (lft s i) = true /\ k = seg_of s i.
Proof.
  intro k. rewrite in_map_iff. split.
  - intros (i & <- & Hi). apply filter_In in Hi. destruct Hi as (Hi & Hr). apply Hids in Hi. destruct (result_picked i Hi Hr) as (_ & Ef & _).
    exists i. split; [exact (proj1 (piece_in i Hi Ef Hr))|]. split; [exact Ef|]. split; [exact Hr|reflexivity].
  - intros (i & Hi & Ef & Hr & ->). exists i. split; [reflexivity|]. apply filter_In. split; [|exact Hr]. apply Hids. exact (pr_left _ _ _ _ Hpr i Hi).
Qed.
Lemma in_valid : valid_multisegment L.
Proof.
  apply pieces_valid; [apply NoDup_filter; exact Hnd|]. intros i Hi. apply filter_In in Hi. destruct Hi as (Hi & Hr). apply Hids in Hi.
  destruct (result_picked i Hi Hr) as (_ & Ef & _). split; [exact (proj1 (piece_in i Hi Ef Hr))|exact Ef].
Qed.
Lemma in_points : forall p, on_segments p L <-> on_part p first (in_region second).
Proof.
  intro p. split.
  - intros (k & Hk & Hp). apply in_in in Hk. destruct Hk as (i & Hi & Ef & Hr & ->). pose proof (sw_range _ _ _ _ Hsw i Hi) as Ri.
    destruct (source_first i Ri Ef) as (sg & Hg & W). destruct (piece_in i (pr_left _ _ _ _ Hpr i Hi) Ef Hr) as (_ & K).
    assert (Q : exists q, p <> q /\ on_segment q (seg_of s i)).
    { destruct (pt_eqb_spec p (l_start (lft s i))) as [E|E].
      - exists (end_of s i). split; [|exact (on_segment_end (seg_of s i))]. rewrite E. exact (piece_proper _ _ _ _ Hsw i Ri).
      - exists (l_start (lft s i)). split; [exact E|exact (on_segment_start (seg_of s i))]. }
    destruct Q as (q & Hpq & Hq). exists sg, q. split; [exact Hg|]. split; [exact Hpq|]. split; [exact (W p Hp)|]. split; [exact (W q Hq)|].
    intros m Hm. apply K. exact (on_convex _ _ _ _ Hp Hq Hm).
  - intros (sg & q & Hg & Hpq & Pp & Pq & K). destruct (piece_toward sg p q Hg Hpq Pp Pq) as (i & m & Hi & Ef & Pi & Hm & Hs).
    destruct (piece_picked i m Hi Ef Hm (K m Hs)) as (Io & Hr). exists (seg_of s i). split; [|exact Pi]. apply in_in. exists i. repeat split; assumption.
Qed.
End In.
End Meaning.
