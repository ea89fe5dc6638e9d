(** Proofs about the segment/multisegment functions of linear.py. *)
From Verif Require Import QcTac Geom Spec GeomFacts Relation Pair PairFacts PairProofs PairThms Unique.

(** [a] is contained in [b]. *)
Definition within (a b : segment) : Prop := forall p, on_segment p a -> on_segment p b.

Lemma within_refl : forall a, within a a.
Proof. intros a p H. exact H. Qed.

Lemma on_lex : forall p s, proper s -> on_segment p s -> ple (seg_lo s) p /\ ple p (seg_hi s).
Proof.
  intros p s P H. rewrite on_segment_norm in H. apply on_segment_lex in H; [tauto|].
  apply seg_lo_lt_hi. exact P.
Qed.

Lemma inside_lex : forall p s, proper s ->
  (inside_segment p s <-> on_segment p s /\ plt (seg_lo s) p /\ plt p (seg_hi s)).
Proof.
  intros p s P. unfold inside_segment. split.
  - intros (A & B & C). destruct (on_lex p s P A) as [L H].
    split; [exact A|]. apply ple_lt_eq in L, H.
    destruct (seg_lo_hi s) as [(E1 & E2 & _)|(E1 & E2 & _)]; rewrite E1, E2 in *;
      (split; [destruct L as [L|L]|destruct H as [H|H]]); auto; congruence.
  - intros (A & B & C). split; [exact A|].
    apply plt_neq in B, C.
    destruct (seg_lo_hi s) as [(E1 & E2 & _)|(E1 & E2 & _)]; rewrite E1, E2 in *; split; congruence.
Qed.

Lemma lo_on : forall s, on_segment (seg_lo s) s.
Proof.
  intros s. destruct (seg_lo_hi s) as [(-> & _)|(-> & _)]; [apply on_segment_start|apply on_segment_end].
Qed.
Lemma hi_on : forall s, on_segment (seg_hi s) s.
Proof.
  intros s. destruct (seg_lo_hi s) as [(_ & -> & _)|(_ & -> & _)]; [apply on_segment_end|apply on_segment_start].
Qed.

Lemma inside_within : forall p a b, proper a -> proper b -> within a b ->
  inside_segment p a -> inside_segment p b.
Proof.
  intros p a b Pa Pb W H. apply inside_lex in H; [|exact Pa]. destruct H as (A & B & C).
  apply inside_lex; [exact Pb|]. split; [auto|].
  destruct (on_lex (seg_lo a) b Pb (W _ (lo_on a))) as [L _].
  destruct (on_lex (seg_hi a) b Pb (W _ (hi_on a))) as [_ H].
  split; [eapply ple_plt_trans; eassumption|eapply plt_ple_trans; eassumption].
Qed.

(** Parts of segments which neither cross nor overlap neither cross nor overlap. *)
Lemma clean_within : forall a b a' b', proper a -> proper b -> proper a' -> proper b' ->
  within a' a -> within b' b -> clean a b -> clean a' b'.
Proof.
  intros a b a' b' Pa Pb Pa' Pb' Wa Wb [NO NC]. 
  assert (NO' : ~ overlap a' b').
  { intros (p & q & N & A & B & C & D). apply NO. exists p, q. auto 10. }
  split; [exact NO'|]. intros [_ (p & A & B)]. apply NC. split; [exact NO|].
  exists p. split; [apply (inside_within p a' a)|apply (inside_within p b' b)]; assumption.
Qed.

Lemma framed_swap : forall s1 s2 e L, framed s1 s2 e L -> framed s2 s1 e L.
Proof.
  intros s1 s2 e L F. destruct F as [f1 f2 f3 f4 f5 f6 f7 f8 f9].
  assert (Hin : forall u, In u [seg_lo s2; seg_hi s2; seg_lo s1; seg_hi s1] ->
    In u [seg_lo s1; seg_hi s1; seg_lo s2; seg_hi s2]) by (cbn; tauto).
  constructor; auto.
Qed.

(** [l] is [ms] with the part on [s] removed, cut where [s] crosses it. *)
Record remainder (s : segment) (ms l : list segment) : Prop := {
  rm_proper : Forall proper l;
  rm_clean : pairwise clean l;
  rm_part : forall t, In t l -> exists m, In m ms /\ within t m;
  rm_all : forall p, on_segments p ms -> ~ on_segment p s -> on_segments p l;
  rm_seg : forall t, In t l -> clean t s }.

Lemma pairwise_app : forall A (R : A -> A -> Prop), (forall a b, R a b -> R b a) ->
  forall l l', pairwise R l -> pairwise R l' -> (forall x y, In x l -> In y l' -> R x y) ->
  pairwise R (l ++ l').
Proof.
  intros A R S l. induction l as [|x l IH]; intros l' H H' X; [exact H'|].
  cbn. apply pairwise_cons_sym in H; [|exact S]. apply pairwise_cons_sym; [exact S|]. split.
  - intros y Hy. apply in_app_or in Hy. destruct Hy as [Hy|Hy]; [apply H; exact Hy|apply X; cbn; auto].
  - apply IH; [apply H|exact H'|]. intros a b Ha Hb. apply X; cbn; auto.
Qed.

Lemma remainder_app : forall s m ms l l', proper m -> Forall proper ms ->
  (forall t, In t ms -> clean m t) ->
  remainder s [m] l -> remainder s ms l' -> remainder s (m :: ms) (l ++ l').
Proof.
  intros s m ms l l' Pm Pms C H H'. constructor.
  - apply Forall_app. split; [apply H|apply H'].
  - apply pairwise_app; [apply clean_sym|apply H|apply H'|].
    intros x y Hx Hy. destruct (rm_part _ _ _ H x Hx) as (m' & [<-|[]] & W).
    destruct (rm_part _ _ _ H' y Hy) as (n & In_ & W').
    pose proof (rm_proper _ _ _ H) as P1. pose proof (rm_proper _ _ _ H') as P2.
    rewrite Forall_forall in P1, P2, Pms.
    apply (clean_within m n); auto.
  - intros t Ht. apply in_app_or in Ht. destruct Ht as [Ht|Ht].
    + destruct (rm_part _ _ _ H t Ht) as (m' & [<-|[]] & W). exists m. cbn; auto.
    + destruct (rm_part _ _ _ H' t Ht) as (n & In_ & W). exists n. cbn; auto.
  - intros p Hp N. rewrite on_segments_app. rewrite on_segments_cons in Hp. destruct Hp as [Hp|Hp].
    + left. apply (rm_all _ _ _ H); [apply on_segments_1; exact Hp|exact N].
    + right. apply (rm_all _ _ _ H'); assumption.
  - intros t Ht. apply in_app_or in Ht. destruct Ht as [Ht|Ht]; [apply (rm_seg _ _ _ H)|apply (rm_seg _ _ _ H')]; exact Ht.
Qed.

(** Nothing to remove. *)
Lemma remainder_id : forall s ms, valid_multisegment ms -> (forall t, In t ms -> clean t s) -> remainder s ms ms.
Proof.
  intros s ms [P C] H. constructor; auto. intros t Ht. exists t. split; [exact Ht|apply within_refl].
Qed.

Lemma remainder_one : forall s m, proper m -> clean m s -> remainder s [m] [m].
Proof. intros s m P C. apply remainder_id; [apply valid_sing, P|]. intros t [<-|[]]. exact C. Qed.

(** A segment without a sub-segment shared with [s] and lying on a segment overlapped by [s] is clean. *)
Lemma on_segments_within : forall l m, (forall p, on_segments p l -> on_segment p m) ->
  forall t, In t l -> within t m.
Proof. intros l m H t Ht p Hp. apply H. exists t. auto. Qed.

Lemma remainder_facts : forall s m l, valid_multisegment l ->
  (forall p, on_segment p m -> ~ on_segment p s -> on_segments p l) ->
  (forall p, on_segments p l -> on_segment p m) ->
  (forall t, In t l -> clean t s) -> remainder s [m] l.
Proof.
  intros s m l [V1 V2] A B C. constructor; auto.
  - intros t Ht. exists m. split; [cbn; auto|]. apply (on_segments_within l m B t Ht).
  - intros p. rewrite on_segments_1. auto.
Qed.

Lemma subtract_list_remainder : forall s, proper s -> forall ms, valid_multisegment ms ->
  remainder s ms (subtract_segment_from_multisegment_list ms s).
Proof.
  intros s Ps ms. induction ms as [|m ms IH]; intros V.
  - cbn. apply remainder_id; [exact V|intros t []].
  - destruct V as [P C]. pose proof (Forall_inv P) as Pm. pose proof (Forall_inv_tail P) as Pms.
    apply pairwise_cons_sym in C; [|apply clean_sym]. destruct C as [Cm Cms].
    specialize (IH (conj Pms Cms)). assert (V' : valid_multisegment ms) by (split; assumption).
    assert (Early : within s m -> forall t, In t ms -> clean t s).
    { intros W t Ht. apply clean_sym. apply (clean_within m t s t); auto using within_refl.
      - rewrite Forall_forall in Pms; auto.
      - rewrite Forall_forall in Pms; auto.
      - apply Cm, Ht. }
    cbn [subtract_segment_from_multisegment_list].
    pose proof (sub_overlap_eq m s Pm Ps) as [O1 O2].
    destruct (pair_case_spec s m Ps Pm) as [E1 E2 O|e L F H1 H2 H3 O|e L F H1 H2 H3 O
      |e L F H1 H2 H3 O|e L F H1 H2 H3 O|x K U E I1 I2|x K U J1 J2 I1 I2|U].
    + apply (remainder_app s m ms []); auto; [|apply remainder_id; [exact V'|]].
      * apply remainder_facts; [split; [constructor|apply pairwise_nil]| | |].
        -- intros p. rewrite (on_segment_norm m), (on_segment_norm s), E1, E2. tauto.
        -- intros p. rewrite on_segments_nil. tauto.
        -- intros t [].
      * apply Early. intro p. rewrite (on_segment_norm m), (on_segment_norm s), E1, E2. tauto.
    + pose proof (framed_swap _ _ _ _ F) as F'.
      destruct (composite_facts m s e L F' Pm Ps H1 H2 H3) as (C1 & C2 & C3 & C4).
      apply remainder_app; auto; [apply remainder_facts; assumption|apply remainder_id; [exact V'|]].
      apply Early. intro p. fpose F. rewrite (fr_on1 _ _ _ _ F), (fr_on2 _ _ _ _ F).
      intros (A & B & C). fsplit.
    + apply (remainder_app s m ms []); auto.
      apply remainder_facts; [split; [constructor|apply pairwise_nil]| | |].
      -- intros p. fpose F. rewrite (fr_on1 _ _ _ _ F), (fr_on2 _ _ _ _ F).
         intros (A & B & C) N. exfalso. apply N. fsplit.
      -- intros p. rewrite on_segments_nil. tauto.
      -- intros t [].
    + pose proof (framed_swap _ _ _ _ F) as F'.
      destruct (sub_overlap_facts m s e L F' Pm Ps) as (C1 & C2 & C3 & C4); [right; auto|].
      apply (remainder_app s m ms [subtract_segments_overlap m s]); auto.
      apply remainder_facts; [apply valid_sing, C1| | |].
      -- intros p. rewrite on_segments_1. auto.
      -- intros p. rewrite on_segments_1. auto.
      -- intros t [<-|[]]. exact C4.
    + pose proof (framed_swap _ _ _ _ F) as F'.
      destruct (sub_overlap_facts m s e L F' Pm Ps) as (C1 & C2 & C3 & C4); [left; auto|].
      apply (remainder_app s m ms [subtract_segments_overlap m s]); auto.
      apply remainder_facts; [apply valid_sing, C1| | |].
      -- intros p. rewrite on_segments_1. auto.
      -- intros p. rewrite on_segments_1. auto.
      -- intros t [<-|[]]. exact C4.
    + apply (remainder_app s m ms [m]); auto. apply remainder_one; [exact Pm|].
      apply clean_sym. apply (clean_touch s m x); [exact U|tauto].
    + apply (remainder_app s m ms [Seg (s_start m) (segments_intersection m s); Seg (segments_intersection m s) (s_end m)]); auto.
      rewrite I2. destruct (split_at m x Pm J2) as [A1 A2]. destruct (halves_proper m x J2) as [Q1 Q2].
      apply remainder_facts.
      * apply valid_pair; auto. apply (clean_touch _ _ x); [|cbn; auto]. intros q [X1 X2]. apply A2; assumption.
      * intros p Hp _. rewrite on_segments_cons, on_segments_1. apply A1. exact Hp.
      * intros p. rewrite on_segments_cons, on_segments_1, A1. auto.
      * intros t [<-|[<-|[]]]; (apply (clean_touch _ _ x); [|cbn; auto]);
          intros q [X1 X2]; apply U; split; auto; apply A1; auto.
    + apply (remainder_app s m ms [m]); auto. apply remainder_one; [exact Pm|].
      apply clean_sym. apply clean_none. exact U.
Qed.

Theorem subtract_segment_from_multisegment_closure : forall ms s, valid_multisegment ms -> proper s ->
  closure_difference (subtract_segment_from_multisegment ms s) ms [s]
  /\ valid_multisegment (segments_of (subtract_segment_from_multisegment ms s)).
Proof.
  intros ms s V P. pose proof (subtract_list_remainder s P ms V) as [R1 R2 R3 R4 R5].
  unfold subtract_segment_from_multisegment. split.
  - apply closure_difference_intro; rewrite ?points_of_unpack, ?polygons_of_unpack, ?segments_of_unpack; auto.
    + intros p. rewrite on_segments_1. auto.
    + intros p (t & It & Ht). destruct (R3 t It) as (m & Im & W). exists m. auto.
    + intros a b Ia [<-|[]]. apply R5. exact Ia.
  - rewrite segments_of_unpack. split; assumption.
Qed.

Theorem unite_segment_with_multisegment_exact : forall s ms, proper s -> valid_multisegment ms ->
  exact_union (unite_segment_with_multisegment s ms) [s] ms.
Proof.
  intros s ms P V. pose proof (subtract_list_remainder s P ms V) as [R1 R2 R3 R4 R5].
  unfold unite_segment_with_multisegment, exact_union.
  rewrite points_of_unpack, polygons_of_unpack, segments_of_unpack.
  split; [reflexivity|]. split; [reflexivity|]. split; [split|].
  - apply Forall_app. auto.
  - apply (pairwise_app segment clean clean_sym); [exact R2|apply pairwise_sing|].
    intros x y Hx [<-|[]]. auto.
  - intro p. rewrite in_geometry_unpack, on_segments_app, !on_segments_1. split.
    + intros [(t & It & Ht)|H]; [|auto]. destruct (R3 t It) as (m & Im & W). right. exists m. auto.
    + intros [H|H]; [auto|]. destruct (on_segment_dec p s) as [J|J]; auto.
Qed.

Theorem intersect_segment_with_multisegment_common : forall s ms, proper s -> Forall proper ms ->
  common_sub_segments (intersect_segment_with_multisegment s ms) [s] ms.
Proof.
  intros s ms P Pms. unfold intersect_segment_with_multisegment, common_sub_segments.
  rewrite points_of_unpack, polygons_of_unpack, segments_of_unpack.
  split; [reflexivity|]. split; [reflexivity|].
  assert (G : Forall proper (intersect_segment_with_multisegment_list s ms)
    /\ forall p, on_segments p (intersect_segment_with_multisegment_list s ms) <-> on_common_segment p [s] ms).
  { induction ms as [|m ms IH].
    - split; [constructor|]. intro p. cbn. rewrite on_segments_nil. split; [tauto|].
      intros (a & b & _ & [] & _).
    - pose proof (Forall_inv Pms) as Pm. destruct (IH (Forall_inv_tail Pms)) as [IH1 IH2].
      assert (Cons : forall p, on_common_segment p [s] (m :: ms) <->
        (overlap s m /\ on_segment p s /\ on_segment p m) \/ on_common_segment p [s] ms).
      { intro p. split.
        - intros (a & b & [<-|[]] & [<-|Ib] & X); [left; exact X|right]. exists s, b. cbn; tauto.
        - intros [X|(a & b & [<-|[]] & Ib & X)]; [exists s, m|exists s, b]; cbn; tauto. }
      assert (None : ~ overlap s m -> forall l, l = [] ->
        Forall proper (l ++ intersect_segment_with_multisegment_list s ms) /\
        forall p, on_segments p (l ++ intersect_segment_with_multisegment_list s ms) <-> on_common_segment p [s] (m :: ms)).
      { intros NO l ->. split; [exact IH1|]. intro p. cbn [app]. rewrite Cons, IH2. tauto. }
      assert (Some_ : forall t, overlap s m -> proper t -> (forall p, on_segment p t <-> on_segment p s /\ on_segment p m) ->
        Forall proper ([t] ++ intersect_segment_with_multisegment_list s ms) /\
        forall p, on_segments p ([t] ++ intersect_segment_with_multisegment_list s ms) <-> on_common_segment p [s] (m :: ms)).
      { intros t O Pt E. split; [constructor; assumption|]. intro p. cbn [app].
        rewrite on_segments_cons, Cons, IH2, E. tauto. }
      cbn [intersect_segment_with_multisegment_list flat_map].
      fold (intersect_segment_with_multisegment_list s ms).
      pose proof (intersect_segments_points s m) as IP. pose proof (intersect_segments_shape s m P Pm) as IS.
      unfold intersect_segments in IP, IS.
      destruct (pair_case_spec s m P Pm) as [E1 E2 O|e L F H1 H2 H3 O|e L F H1 H2 H3 O
        |e L F H1 H2 H3 O|e L F H1 H2 H3 O|x K U E I1 I2|x K U J1 J2 I1 I2|U].
      + apply Some_; auto. intro p. rewrite <- IP by assumption. rewrite in_geometry_seg. reflexivity.
      + apply Some_; auto. intro p. rewrite <- IP by assumption. rewrite in_geometry_seg. reflexivity.
      + apply Some_; auto. intro p. rewrite <- IP by assumption. rewrite in_geometry_seg. reflexivity.
      + apply Some_; auto; [|intro p; rewrite <- IP by assumption; rewrite in_geometry_seg; reflexivity].
        pose proof (sub_overlap_eq s m P Pm) as [(_ & -> & _) _]; [auto|auto]. apply plt_neq. assumption.
      + apply Some_; auto; [|intro p; rewrite <- IP by assumption; rewrite in_geometry_seg; reflexivity].
        pose proof (sub_overlap_eq s m P Pm) as [_ (_ & -> & _)]; [auto|auto]. apply plt_neq. assumption.
      + apply None; [apply (no_overlap_unique _ _ x U)|reflexivity].
      + apply None; [apply (no_overlap_unique _ _ x U)|reflexivity].
      + apply None; [apply (no_overlap_none _ _ U)|reflexivity]. }
  split; [apply G|]. intro p. rewrite in_geometry_unpack. apply G.
Qed.
