(** Pieces selected by linear.py are the fragments of operands.
    Proof support only, no part of /repo is modelled here. *)
From Coq Require Import Permutation Sorted.
From Verif Require Import QcTac Geom Spec SpecNode GeomFacts SortFacts Relation Bounding Toward BoundingThms UnpackThms SweepInv SweepSteps Sweep SweepCmp Linear SweepLoop SweepStart SweepEnd SelectThms LinearMeaning LinearThms LinearComplete LinearProps Nodes Cycle LoopThms Unique.

(** ** Fragments in terms of points *)
Lemma lerps_cross : forall u v a b c, cross (lerp u v a) (lerp u v b) (lerp u v c) = 0.
Proof. intros. unfold cross, lerp. cbn. ring. Qed.
Lemma swallow : forall t s1 sg m, plt (s_start t) (s_end t) -> proper sg -> (forall p, on_segment p t -> on_segment p s1) -> overlap s1 sg ->
  inside_segment m t -> on_segment m sg -> (forall p, endpoint p sg -> ~ inside_segment p t) -> forall p, on_segment p t -> on_segment p sg.
Proof.
  intros t s1 sg m L Ps W (u & v & Nuv & U1 & U2 & V1 & V2) (Im & M1 & M2) Om Hc.
  destruct (seg_ends sg Ps) as (Llh & Ol & Oh & Ee). set (lo := seg_lo sg) in *. set (hi := seg_hi sg) in *.
  destruct t as [a b]. cbn in L, M1, M2.
  assert (Ia : on_segment a s1) by (apply W; apply (on_segment_start (Seg a b))). assert (Ib : on_segment b s1) by (apply W; apply (on_segment_end (Seg a b))).
  destruct (on_line s1 u v a Nuv U1 V1 Ia) as (ta & Ea). destruct (on_line s1 u v b Nuv U1 V1 Ib) as (tb & Eb).
  destruct (on_line sg u v lo Nuv U2 V2 Ol) as (tl & El). destruct (on_line sg u v hi Nuv U2 V2 Oh) as (th & Eh).
  pose proof (proj1 (on_segment_lex a b m L) Im) as (_ & A1 & A2).
  pose proof (proj1 (on_segment_norm sg m) Om) as Om'. fold lo hi in Om'. apply (on_segment_lex lo hi m Llh) in Om'. destruct Om' as (_ & B1 & B2).
  assert (Cl : ple lo a).
  { apply nplt_ple. intro K. apply (Hc lo); [apply Ee; left; reflexivity|]. split; [|split; cbn].
    - apply (on_segment_lex a b lo L). split; [rewrite Ea, Eb, El; apply lerps_cross|]. split; [apply plt_ple; exact K|exact (ple_trans _ _ _ B1 A2)].
    - intro E. rewrite E in K. exact (plt_irrefl _ K).
    - intro E. rewrite E in B1. apply M2. exact (ple_antisym _ _ A2 B1). }
  assert (Ch : ple b hi).
  { apply nplt_ple. intro K. apply (Hc hi); [apply Ee; right; reflexivity|]. split; [|split; cbn].
    - apply (on_segment_lex a b hi L). split; [rewrite Ea, Eb, Eh; apply lerps_cross|]. split; [exact (ple_trans _ _ _ A1 B2)|apply plt_ple; exact K].
    - intro E. rewrite E in B2. apply M1. exact (ple_antisym _ _ B2 A1).
    - intro E. rewrite E in K. exact (plt_irrefl _ K). }
  assert (Sa : on_segment a sg).
  { apply on_segment_norm. fold lo hi. apply (on_segment_lex lo hi a Llh). split; [rewrite Ea, El, Eh; apply lerps_cross|]. split; [exact Cl|]. apply plt_ple. exact (plt_ple_trans _ _ _ L Ch). }
  assert (Sb : on_segment b sg).
  { apply on_segment_norm. fold lo hi. apply (on_segment_lex lo hi b Llh). split; [rewrite Eb, El, Eh; apply lerps_cross|]. split; [|exact Ch]. apply plt_ple. exact (ple_plt_trans _ _ _ Cl L). }
  intros p Hp. exact (on_convex sg a b p Sa Sb Hp).
Qed.

Section Fragments.
Variable ss : list segment.
Hypothesis Pr : Forall proper ss.
Lemma frag_proper : forall of t, fragment ss of t -> proper t.
Proof. intros of t (_ & L & _) E. rewrite E in L. exact (plt_irrefl _ L). Qed.
Lemma frag_mono : forall of of' t, (forall s, In s of -> In s of') -> fragment ss of t -> fragment ss of' t.
Proof. intros of of' t I ((s & Hs & W) & K). split; [exists s; auto|exact K]. Qed.
(** A fragment having an inner point on a segment is a part of it. *)
Lemma frag_in : forall of t s m, (forall s, In s of -> In s ss) -> fragment ss of t -> In s ss -> inside_segment m t -> on_segment m s ->
  forall p, on_segment p t -> on_segment p s.
Proof.
  intros of t s m I ((s1 & H1 & W) & L & N1 & N2 & C) Hs Im Om p Hp. rewrite Forall_forall in Pr.
  destruct (on_segment_dec p s) as [K|K]; [exact K|exfalso]. apply (C m Im). right. exists s1, s. split; [exact (I _ H1)|]. split; [exact Hs|].
  split; [apply W; exact (proj1 Im)|]. split; [exact Om|]. intro O. apply K. revert p Hp K. intros p Hp _. revert p Hp. apply (swallow t s1 s m); auto.
  intros q Q J. apply (C q J). left. exists s. auto.
Qed.
Lemma frag_same : forall of of' t u m, (forall s, In s of -> In s ss) -> (forall s, In s of' -> In s ss) -> fragment ss of t -> fragment ss of' u ->
  inside_segment m t -> on_segment m u -> t = u.
Proof.
  intros of of' t u m I I' Ft Fu Im Om. pose proof Fu as ((s & Hs & W) & Lu & Nu1 & Nu2 & Cu). pose proof Ft as ((s' & Hs' & W') & Lt & Nt1 & Nt2 & Ct).
  pose proof (frag_in of t s m I Ft (I' _ Hs) Im (W _ Om)) as Wt.
  assert (Tu : forall p, on_segment p t -> on_segment p u).
  { apply (swallow t s u m Lt (frag_proper _ _ Fu) Wt); [|exact Im|exact Om|].
    - exists (s_start u), (s_end u). split; [exact (frag_proper _ _ Fu)|]. repeat split; try (apply W); try apply on_segment_start; apply on_segment_end.
    - intros q [-> | ->] J; [exact (Ct _ J Nu1)|exact (Ct _ J Nu2)]. }
  assert (E : forall q, on_segment q u -> node ss q -> q = s_start u \/ q = s_end u).
  { intros q Q N. destruct (pt_eq_dec q (s_start u)) as [K|K]; [left; exact K|]. destruct (pt_eq_dec q (s_end u)) as [J|J]; [right; exact J|].
    exfalso. exact (Cu q (conj Q (conj K J)) N). }
  destruct (E _ (Tu _ (on_segment_start t)) Nt1) as [E1|E1]; destruct (E _ (Tu _ (on_segment_end t)) Nt2) as [E2|E2].
  - exfalso. apply (frag_proper _ _ Ft). congruence.
  - destruct t, u; cbn in *; congruence.
  - exfalso. rewrite E1, E2 in Lt. exact (plt_irrefl _ (plt_trans _ _ _ Lt Lu)).
  - exfalso. apply (frag_proper _ _ Ft). congruence.
Qed.
End Fragments.

(** ** Pieces *)
Section Pieces.
Variables (first second : list segment) (x_max : option Qc) (s : state) (out : list nat).
Hypothesis P1 : Forall proper first.
Hypothesis P2 : Forall proper second.
Hypothesis H : swept (tag first second) x_max s out.
Hypothesis Hn : forall i, (i < length (lefts s))%nat -> node (first ++ second) (l_start (lft s i)) /\ node (first ++ second) (end_of s i).
Notation both := (first ++ second).
Notation operand b := (if b : bool then first else second).
Notation side i := (l_first (lft s i)).
Notation result test := (select test (s, map EL out)).

Lemma operand_in : forall b sg, In sg (operand b) -> In sg both.
Proof. intros b sg K. apply in_or_app. destruct b; auto. Qed.
Lemma both_in : forall sg, In sg both -> exists b, In sg (operand b).
Proof. intros sg K. apply in_app_or in K. destruct K as [K|K]; [exists true|exists false]; exact K. Qed.
Lemma both_proper : Forall proper both.
Proof. apply Forall_app. split; assumption. Qed.
Lemma piece_over : forall i sg p, In i out -> In sg both -> inside_segment p (seg_of s i) -> on_segment p sg ->
  exists j, seg_of s j = seg_of s i /\ SweepLoop.within (seg_of s j) sg.
Proof.
  intros i sg p Hi Hs (Oi & N1 & N2) Op. destruct (both_in sg Hs) as (b & Hb). destruct (piece_at _ _ _ _ _ H b sg p Hb Op) as (j & Hj & _ & Oj & W).
  exists j. split; [|exact W]. destruct (Nat.eq_dec j i) as [->|N]; [reflexivity|].
  destruct (sw_apart _ _ _ _ H i j Hi Hj N) as [K|(_ & K & _)]; [exfalso|symmetry; exact K]. destruct (K p Oi Oj) as ([J|J] & _); [exact (N1 J)|exact (N2 J)].
Qed.
Lemma piece_clear : forall i p, In i out -> inside_segment p (seg_of s i) -> ~ node both p.
Proof.
  intros i p Hi Ip N. pose proof (sw_plt _ _ _ _ H i (sw_range _ _ _ _ H i Hi)) as L. destruct N as [(sg & Hs & E)|(s1 & s2 & H1 & H2 & O1 & O2 & N)].
  - assert (Op : on_segment p sg) by (destruct E as [-> | ->]; [apply on_segment_start|apply on_segment_end]).
    destruct (piece_over i sg p Hi Hs Ip Op) as (j & Ej & W). rewrite Ej in W.
    pose proof both_proper as Pr. rewrite Forall_forall in Pr. pose proof (Pr sg Hs) as Ps.
    destruct Ip as (Oi & N1 & N2). cbn in N1, N2. unfold seg_of in Oi. apply (on_segment_lex _ _ p L) in Oi. destruct Oi as (_ & A & B).
    destruct (seg_ends sg Ps) as (_ & _ & _ & Ee).
    pose proof (LoopThms.on_lex _ sg Ps (W _ (on_segment_start (seg_of s i)))) as (C & _). pose proof (LoopThms.on_lex _ sg Ps (W _ (on_segment_end (seg_of s i)))) as (_ & D). cbn in C, D.
    apply Ee in E. destruct E as [E|E]; subst p; [apply N1; exact (ple_antisym _ _ C A)|apply N2; exact (ple_antisym _ _ B D)].
  - destruct (piece_over i s1 p Hi H1 Ip O1) as (j & Ej & W). destruct (piece_over i s2 p Hi H2 Ip O2) as (k & Ek & V). rewrite Ej in W. rewrite Ek in V.
    apply N. exists (s_start (seg_of s i)), (s_end (seg_of s i)). split; [cbn; apply plt_neq; exact L|].
    repeat split; (apply W || apply V); apply on_segment_start || apply on_segment_end.
Qed.
Lemma piece_fragment : forall i, In i out -> fragment both (operand (side i)) (seg_of s i).
Proof.
  intros i Hi. pose proof (sw_range _ _ _ _ H i Hi) as Ri. split; [exact (piece_source _ _ _ _ _ H i Ri)|]. split; [exact (sw_plt _ _ _ _ H i Ri)|].
  split; [exact (proj1 (Hn i Ri))|]. split; [exact (proj2 (Hn i Ri))|]. intros p Ip. exact (piece_clear i p Hi Ip).
Qed.
Lemma piece_any : forall i, In i out -> fragment both both (seg_of s i).
Proof. intros i Hi. apply (frag_mono _ (operand (side i))); [apply operand_in|]. exact (piece_fragment i Hi). Qed.

(** A fragment with its inner points on a list of fragments is in the list. *)
Lemma reached : forall ts of t m, (forall u, In u ts -> fragment both both u) -> (forall s, In s of -> In s both) -> fragment both of t ->
  inside_segment m t -> on_segments m ts -> In t ts.
Proof.
  intros ts of t m Hts I Ft Im (u & Hu & Om). rewrite (frag_same both both_proper of both t u m I (fun _ K => K) Ft (Hts u Hu) Im Om). exact Hu.
Qed.

Lemma union_fragments : x_max = None -> forall t, In t (result (fun _ => true)) <-> fragment both both t.
Proof.
  intros Ex. assert (G : forall t, In t (result (fun _ => true)) -> fragment both both t).
  { intros t K. apply (result_sound _ _ _ _ _ H (fun _ => true) eq_refl) in K. destruct K as (i & Hi & -> & _). exact (piece_any i Hi). }
  intro t. split; [exact (G t)|]. intro Ft. destruct (midpoint_inside t (frag_proper _ _ _ Ft)) as (m & Im).
  apply (reached _ both t m G (fun _ K => K) Ft Im). apply (union_points _ _ _ _ _ H Ex). destruct Ft as ((sg & Hs & W) & _). apply on_app.
  exists sg. split; [exact Hs|apply W; exact (proj1 Im)].
Qed.
Lemma symmetric_fragments : x_max = None -> forall t, In t (result all_equal) <->
  fragment both first t /\ ~ fragment both second t \/ fragment both second t /\ ~ fragment both first t.
Proof.
  intros Ex t. split.
  - intro K. apply (result_sound _ _ _ _ _ H all_equal eq_refl) in K. destruct K as (i & Hi & -> & [(Ha & _)|(_ & K)]); [|discriminate K].
    assert (No : ~ fragment both (operand (negb (side i))) (seg_of s i)).
    { intros ((sg & Hs & W) & L & _). apply (alone_no_overlap _ _ _ _ _ H i sg Hi Ha Hs). exists (s_start (seg_of s i)), (s_end (seg_of s i)).
      split; [apply plt_neq; exact L|]. repeat split; try (apply W); apply on_segment_start || apply on_segment_end. }
    pose proof (piece_fragment i Hi) as F. destruct (side i); [left|right]; split; assumption.
  - assert (G : forall t, In t (result all_equal) -> fragment both both t).
    { intros t' K. apply (result_sound _ _ _ _ _ H all_equal eq_refl) in K. destruct K as (i & Hi & -> & _). exact (piece_any i Hi). }
    assert (A : forall b, fragment both (operand b) t -> ~ fragment both (operand (negb b)) t -> In t (result all_equal)).
    { intros b Ft N. destruct (midpoint_inside t (frag_proper _ _ _ Ft)) as (m & Im).
      apply (reached _ (operand b) t m G (operand_in b) Ft Im). apply (proj1 (symmetric_points _ _ _ _ _ H Ex)).
      assert (O1 : on_segments m (operand b)) by (destruct Ft as ((sg & Hs & W) & _); exists sg; split; [exact Hs|apply W; exact (proj1 Im)]).
      assert (O2 : ~ on_segments m (operand (negb b))).
      { intros (sg & Hs & Om). apply N. pose proof (frag_in both both_proper _ t sg m (operand_in b) Ft (operand_in _ _ Hs) Im Om) as W.
        destruct Ft as (_ & R). split; [exists sg; split; assumption|exact R]. }
      destruct b; [left|right]; split; assumption. }
    intros [(F & N)|(F & N)]; [exact (A true F N)|exact (A false F N)].
Qed.
Lemma paired_fragment : forall i j, paired s out i j -> fragment both first (seg_of s i) /\ fragment both second (seg_of s i).
Proof.
  intros i j (Hi & Hj & E & F). pose proof (piece_fragment i Hi) as A. pose proof (piece_fragment j Hj) as B. rewrite <- E in B.
  destruct (side i), (side j); try congruence; split; assumption.
Qed.
(** Lists of common fragments with all common segments. *)
Lemma common_fragments : forall ts, (forall t, In t ts -> fragment both first t /\ fragment both second t) ->
  (forall p, on_common_segment p first second -> on_segments p ts) -> forall t, In t ts <-> fragment both first t /\ fragment both second t.
Proof.
  intros ts G O t. split; [exact (G t)|]. intros (F1 & F2). destruct (midpoint_inside t (frag_proper _ _ _ F1)) as (m & Im).
  apply (reached ts first t m); [|exact (operand_in true)|exact F1|exact Im|].
  - intros u Hu. apply (frag_mono _ first); [exact (operand_in true)|exact (proj1 (G u Hu))].
  - apply O. pose proof F1 as ((s1 & H1 & W1) & L & _). pose proof F2 as ((s2 & H2 & W2) & _). exists s1, s2. split; [exact H1|]. split; [exact H2|]. split.
    + exists (s_start t), (s_end t). split; [apply plt_neq; exact L|]. repeat split; (apply W1 || apply W2); apply on_segment_start || apply on_segment_end.
    + split; [apply W1|apply W2]; exact (proj1 Im).
Qed.
Lemma intersection_fragments : covers first second x_max true \/ covers first second x_max false ->
  forall t, In t (result (fun l => negb (all_equal l))) <-> fragment both first t /\ fragment both second t.
Proof.
  intros Hc. apply common_fragments.
  - intros t K. apply (result_sound _ _ _ _ _ H (fun l => negb (all_equal l)) eq_refl) in K. destruct K as (i & Hi & -> & [(_ & K)|((j & K) & _)]); [discriminate K|].
    exact (paired_fragment i j K).
  - intros p K. exact (proj2 (intersection_points _ _ _ _ _ H Hc p) K).
Qed.
Lemma complete_fragments : forall pl b, processed x_max s out pl -> covers first second x_max b ->
  forall t, In t (snd (complete_parts (s, pl))) <-> fragment both first t /\ fragment both second t.
Proof.
  intros pl b Hp Hc. apply common_fragments.
  - intros t K. apply (segments_in _ _ _ _ _ _ H Hp b Hc) in K. destruct K as (i & j & K & ->). exact (paired_fragment i j K).
  - intros p K. exact (proj2 (segments_on _ _ _ _ _ _ H Hp b Hc p) K).
Qed.
End Pieces.

(** ** Lists in order are determined by their members *)
Lemma segment_lt_asym : forall a b, segment_lt a b -> segment_lt b a -> False.
Proof. intros a b K J. exact (seg_lt_irrefl _ (seg_lt_trans _ _ _ K J)). Qed.
Lemma strict_unique : forall (A : Type) (lt : A -> A -> Prop), (forall a b, lt a b -> lt b a -> False) ->
  forall l l', StronglySorted lt l -> StronglySorted lt l' -> (forall x, In x l <-> In x l') -> l = l'.
Proof.
  intros A lt As l. assert (Ir : forall a, ~ lt a a) by (intros a K; exact (As a a K K)).
  induction l as [|x l IH]; intros l' S S' E.
  - destruct l' as [|y l']; [reflexivity|]. destruct (proj2 (E y) (or_introl eq_refl)).
  - inversion S as [|? ? S1 F1]; subst. rewrite Forall_forall in F1. destruct l' as [|y l']; [destruct (proj1 (E x) (or_introl eq_refl))|].
    inversion S' as [|? ? S2 F2]; subst. rewrite Forall_forall in F2.
    assert (x = y) as <-.
    { destruct (proj1 (E x) (or_introl eq_refl)) as [K|K]; [symmetry; exact K|]. destruct (proj2 (E y) (or_introl eq_refl)) as [J|J]; [exact J|].
      exfalso. exact (As _ _ (F1 _ J) (F2 _ K)). }
    f_equal. apply IH; [exact S1|exact S2|]. intro z. split; intro K.
    + destruct (proj1 (E z) (or_intror K)) as [<-|J]; [exfalso; exact (Ir _ (F1 _ K))|exact J].
    + destruct (proj2 (E z) (or_intror K)) as [<-|J]; [exfalso; exact (Ir _ (F2 _ K))|exact J].
Qed.
Lemma arranged_unique : forall l l', arranged l -> arranged l' -> (forall t, In t l <-> In t l') -> l = l'.
Proof. intros l l' (_ & S & _) (_ & S' & _). exact (strict_unique _ segment_lt segment_lt_asym l l' S S'). Qed.
Lemma points_unique : forall l l', StronglySorted plt l -> StronglySorted plt l' -> (forall p, In p l <-> In p l') -> l = l'.
Proof. apply strict_unique. intros a b K J. exact (plt_irrefl _ (plt_trans _ _ _ K J)). Qed.
