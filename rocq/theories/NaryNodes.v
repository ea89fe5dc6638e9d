(** Segments returned by merging are the fragments of segments given.
    Proof support only, no part of /repo is modelled here. *)
From Coq Require Import Permutation Sorted.
From Verif Require Import QcTac Geom Spec SpecNode GeomFacts Relation SortFacts PairFacts Pair Toward UnpackThms SweepGeo SweepInv SweepSteps Sweep SweepCmp SweepLink Linear SweepRun SweepLoop SweepStart SweepEnd SelectThms LinearMeaning LinearThms NaryThms Nodes Fragments NodeProps.

Lemma merge_fragment : forall ss, non_overlapping ss -> exists ts, (forall o, segments_to_multisegment o ss = Ok (unpack_segments ts)) /\ forall t, In t ts -> fragment ss ss t.
Proof.
  intros ss N. assert (N0 : non_overlapping []) by (split; [constructor|intros [|i] [|j] a b _ K; discriminate K]).
  pose proof (filled_linear [] ss) as Hf. pose proof (lawful_operands _ _ N0 N) as Hl.
  change (fill_linear [] ss) with (register false ss empty_state) in Hf.
  set (s0 := register false ss empty_state) in *.
  destruct (shear_exists (relevant_points s0)) as (e & _ & Hsh).
  assert (Hn : length (tag [] ss) = length ss) by (unfold tag; rewrite app_length, !map_length; reflexivity).
  assert (H0 : seconds s0).
  { intro i. destruct (Nat.lt_ge_cases i (length (lefts s0))) as [L|L].
    - destruct (in_tag _ _ Hf i L) as (b & sg & E). rewrite (f_left _ _ Hf i b sg E). cbn [l_first]. apply nth_tag in E.
      destruct E as [(_ & E)|(E & _)]; [destruct i; discriminate E|exact E].
    - unfold lft. rewrite nth_overflow by exact L. reflexivity. }
  assert (Hq : exists l, (forall o, run_nary o (enough (length ss)) 0 s0 [] = Ok l) /\ forall t, In t l -> node ss (s_start t) /\ node ss (s_end t)).
  { destruct (some_of point (real s0 e) (relevant_points s0) (real_dec _ _)) as (Q & HQ & LQ).
    destruct (Q_good _ _ Hf Hl e Hsh Q HQ LQ) as (T0 & Hk & Hm). rewrite Hn in Hm. pose proof (Q_sheared _ e Hsh Q HQ) as Hs'.
    destruct (run_nary_spec e Q Hs' s0 (enough (length ss)) T0 s0 [] Hk H0) as (T & s & pl & Hk' & Hs & Hq & R); [lia|].
    exists (map (seg_of s) (rev (finished s pl))). split; [intro o; exact (R o 0%nat)|].
    pose proof (k_inv _ _ _ _ _ _ Hk') as Iv. pose proof (i_wf _ _ _ _ _ Iv) as Hw. pose proof (b_geo _ _ _ _ (i_base _ _ _ _ _ Iv)) as Hgeo.
    assert (Hss : forall b sg, In (b, sg) (tag [] ss) -> In sg ss).
    { intros b sg K. unfold tag in K. cbn in K. apply in_map_iff in K. destruct K as (x & K & J). injection K as _ <-. exact J. }
    intros t K. apply in_map_iff in K. destruct K as (i & <- & K). apply in_rev in K. 
    assert (Hi : (i < length (lefts s))%nat) by exact (done_lt _ _ (b_q _ _ _ _ (i_base _ _ _ _ _ Iv)) K).
    split; apply (real_node _ _ Hf Hl e Hsh Q LQ _ Hss); cbn [seg_of s_start s_end].
    - exact (proj2 (proj1 (HQ _) (st_ev_start e Q Hs' s _ Hw Hgeo (EL i) Hi))).
    - exact (proj2 (proj1 (HQ _) (st_ev_start e Q Hs' s _ Hw Hgeo (ER (l_right (lft s i))) (proj1 (w_lr s Hw i Hi))))). }
  destruct Hq as (l & Rl & Nl).
  destruct (init_good _ _ Hf Hl e Hsh) as (T0 & Hk & Hm). rewrite Hn in Hm.
  destruct (run_nary_spec e _ Hsh s0 (enough (length ss)) T0 s0 [] Hk H0) as (T & s & pl & Hk' & Hs & Hq & R); [lia|].
  destruct (final_swept _ _ Hf e Hsh None T s pl s Hk') as (H & _).
  { intros ev _. reflexivity. }
  { left. split; [exact Hq|reflexivity]. }
  set (out := rev (finished s pl)) in *.
  assert (El : l = map (seg_of s) out).
  { pose proof (Rl (Oracle (fun _ _ => 0%nat) (fun _ _ => 0%nat))) as A. pose proof (R (Oracle (fun _ _ => 0%nat) (fun _ _ => 0%nat)) 0%nat) as B.
    cbn [finished map filter rev] in B. rewrite A in B. injection B as B. exact B. }
  assert (Nd : forall i, (i < length (lefts s))%nat -> node ([] ++ ss) (l_start (lft s i)) /\ node ([] ++ ss) (end_of s i)).
  { intros i Hi. change ([] ++ ss) with ss. change (l_start (lft s i)) with (s_start (seg_of s i)). change (end_of s i) with (s_end (seg_of s i)).
    apply Nl. rewrite El. apply in_map. destruct (in_dec Nat.eq_dec i out) as [K|K]; [exact K|exfalso]. destruct (sw_rest _ _ _ _ H i Hi K) as (x & Ex & _). discriminate Ex. }
  eexists. split; [intro o; unfold segments_to_multisegment, merge_segments, merge_list; fold s0; rewrite (Rl o); reflexivity|].
  intros t K. apply sort_by_in in K. apply in_map_iff in K. destruct K as ((k, g) & E & K). cbn in E. subst k.
  destruct (group_by_keys seg_eqb (fun x => x) seg_eqb_spec _ _ _ K) as (Ng & Kg). destruct g as [|x g]; [congruence|]. destruct (Kg x (or_introl eq_refl)) as (E & Ix). subst x.
  rewrite El in Ix. apply in_map_iff in Ix. destruct Ix as (i & <- & Hi).
  exact (piece_any [] ss None s out (proj1 N0) (proj1 N) H Nd i Hi).
Qed.
Lemma merge_form : forall ss, non_overlapping ss -> exists ts, (forall o, segments_to_multisegment o ss = Ok (unpack_segments ts)) /\ arranged ts /\ forall t, In t ts <-> fragment ss ss t.
Proof.
  intros ss N. destruct (merge_correct ss N) as (g & G & A & B & C & D & E). destruct (merge_fragment ss N) as (ts & G' & F).
  pose proof (G (Oracle (fun _ _ => 0%nat) (fun _ _ => 0%nat))) as X. rewrite G' in X. injection X as <-. destruct (unpack_segments_canonical ts) as (_ & _ & C3 & _). rewrite C3 in D.
  exists ts. split; [exact G'|]. split; [exact D|]. intro t. split; [exact (F t)|]. intro K. destruct (midpoint_inside t (frag_proper _ _ _ K)) as (m & Im).
  assert (Og : in_geometry m (unpack_segments ts)) by (apply E; destruct K as ((sg & Hs & W) & _); exists sg; split; [exact Hs|apply W; exact (proj1 Im)]).
  apply in_unpacked in Og. destruct Og as (u & Hu & Om).
  rewrite (frag_same ss (proj1 N) ss ss t u m (fun _ Y => Y) (fun _ Y => Y) K (F u Hu) Im Om). exact Hu.
Qed.
Theorem merge_cut : forall ss, non_overlapping ss ->
  exists g, (forall o, segments_to_multisegment o ss = Ok g) /\ canonical g /\ points_of g = [] /\ polygons_of g = [] /\ arranged (segments_of g)
  /\ forall t, In t (segments_of g) <-> fragment ss ss t.
Proof.
  intros ss N. destruct (merge_form ss N) as (ts & G & A & E). destruct (unpack_segments_canonical ts) as (C1 & C2 & C3 & C4).
  exists (unpack_segments ts). rewrite C3. split; [exact G|]. split; [exact C1|]. split; [exact C2|]. split; [exact C4|]. split; [exact A|exact E].
Qed.
Theorem merge_redrawn : forall ss ss', non_overlapping ss -> non_overlapping ss' -> redrawn ss ss' ->
  forall o o', segments_to_multisegment o ss = segments_to_multisegment o' ss'.
Proof.
  intros ss ss' N N' R o o'. destruct (merge_form ss N) as (ts & G & A & E). destruct (merge_form ss' N') as (ts' & G' & A' & E').
  rewrite G, G'. do 2 f_equal. apply arranged_unique; [exact A|exact A'|]. intro t. rewrite E, E'. apply redrawn_fragment; exact R.
Qed.
(** Merging is what uniting does. *)
Theorem merge_union : forall first second a b, non_overlapping (first ++ second) -> non_overlapping first -> non_overlapping second -> bounds first a -> bounds second b -> ~ separate a b ->
  forall o o' g g', segments_to_multisegment o (first ++ second) = Ok g -> unite_multisegments o' first second = Ok g' -> segments_of g = segments_of g'.
Proof.
  intros first second a b N N1 N2 A B K o o' g g' G G'. destruct (merge_cut _ N) as (h & H & _ & _ & _ & Ar & E). destruct (union_cut first second a b N1 N2 A B K) as (ts & H' & Ar' & E').
  rewrite H in G. rewrite H' in G'. injection G as <-. injection G' as <-. apply arranged_unique; [exact Ar|exact Ar'|]. intro t. cbn [segments_of]. rewrite E, E'. reflexivity.
Qed.
(** Merging of merged segments changes nothing. *)
Theorem merge_again : forall ss, non_overlapping ss -> forall o g, segments_to_multisegment o ss = Ok g -> forall o', segments_to_multisegment o' (segments_of g) = Ok g.
Proof.
  intros ss N o g G o'. destruct (merge_form ss N) as (ts & H & A & E). rewrite H in G. injection G as <-. destruct (unpack_segments_canonical ts) as (_ & _ & C3 & _). rewrite C3.
  destruct (merge_form ts (valid_non_overlapping _ (arranged_valid _ A))) as (us & H' & A' & E'). rewrite H'. do 2 f_equal. apply arranged_unique; [exact A'|exact A|].
  destruct A as (P & _ & M). assert (Nt : forall p, node ts p -> exists t, In t ts /\ endpoint p t).
  { intros p [K|(s & t & Hs & Ht & Os & Ot & No)]; [exact K|]. exists s. split; [exact Hs|]. apply (M s t Hs Ht); [|exact Os|exact Ot].
    intros ->. apply No. exists (s_start t), (s_end t). split; [apply plt_neq; exact (P t Ht)|]. repeat split; apply on_segment_start || apply on_segment_end. }
  assert (F : forall t, In t ts -> fragment ts ts t).
  { intros t Ht. split; [exists t; auto|]. split; [exact (P t Ht)|]. split; [left; exists t; split; [exact Ht|left; reflexivity]|]. split; [left; exists t; split; [exact Ht|right; reflexivity]|].
    intros p (Op & N1 & N2) Np. destruct (Nt p Np) as (u & Hu & Eu).
    assert (Ou : on_segment p u) by (destruct Eu as [-> | ->]; [apply on_segment_start|apply on_segment_end]).
    assert (Q : endpoint p t).
    { destruct (pt_eq_dec (s_start t) (s_start u)) as [X|X]; [destruct (pt_eq_dec (s_end t) (s_end u)) as [Y|Y]|].
      - destruct t, u; cbn in X, Y; subst; exact Eu.
      - apply (M t u Ht Hu); [intros ->; congruence|exact Op|exact Ou].
      - apply (M t u Ht Hu); [intros ->; congruence|exact Op|exact Ou]. }
    destruct Q; contradiction. }
  intro t. rewrite E'. split; [|exact (F t)]. intro K. destruct (midpoint_inside t (frag_proper _ _ _ K)) as (m & Im).
  pose proof K as ((u & Hu & W) & _). assert (Pr : Forall proper ts) by (apply Forall_forall; intros x Hx; apply plt_neq; exact (P x Hx)).
  rewrite (frag_same ts Pr ts ts t u m (fun _ Y => Y) (fun _ Y => Y) K (F u Hu) Im (W _ (proj1 Im))). exact Hu.
Qed.
