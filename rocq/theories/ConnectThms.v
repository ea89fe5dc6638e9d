(** Connectivity of events sharing starts. *)
From Coq Require Import Permutation.
From Verif Require Import QcTac Geom Spec GeomFacts Sweep SpecShape Contour.

Lemma follow_plus : forall a b c i, follow (a + b) c i = follow b c (follow a c i).
Proof. induction a as [|a IH]; intros b c i; [reflexivity|]. cbn. apply IH. Qed.
Lemma follow_last : forall k c i, follow (S k) c i = nth (follow k c i) c O.
Proof. induction k as [|k IH]; intros c i; [reflexivity|]. cbn [follow] in *. rewrite <- IH. reflexivity. Qed.

Lemma pt_eqb_eq : forall p q, pt_eqb p q = true <-> p = q.
Proof. intros p q. destruct (pt_eqb_spec p q); split; congruence. Qed.

Lemma advance_spec : forall test n fuel i, (i <= n)%nat -> (n <= i + fuel)%nat ->
  let j := advance test n fuel i in
  (i <= j <= n)%nat /\ (forall k, (i <= k < j)%nat -> test k = true) /\ ((j < n)%nat -> test j = false).
Proof.
  intros test n fuel. induction fuel as [|f IH]; intros i Hi Hf; cbn [advance].
  - split; [lia|]. split; intros; lia.
  - destruct (Nat.ltb_spec i n) as [G|G]; cbn [andb].
    + destruct (test i) eqn:T; cbn [andb].
      * destruct (IH (S i) ltac:(lia) ltac:(lia)) as (A & B & C). split; [lia|]. split; [|exact C].
        intros k Hk. destruct (Nat.eq_dec k i) as [->|N]; [exact T|]. apply B. lia.
      * split; [lia|]. split; [intros; lia|]. intros _. exact T.
    + split; [lia|]. split; intros; lia.
Qed.

Lemma assign_length : forall l i v, length (assign l i v) = length l.
Proof. unfold assign. induction l as [|x l IH]; intros [|i] v; cbn; auto. Qed.
Lemma assign_nth : forall l i v j, (i < length l)%nat ->
  nth j (assign l i v) O = if Nat.eqb j i then v else nth j l O.
Proof.
  unfold assign. induction l as [|x l IH]; intros i v j Hi; cbn in Hi; [lia|].
  destruct i as [|i]; destruct j as [|j]; cbn; try reflexivity. apply IH. lia.
Qed.
Lemma slice_length : forall l a b v, (a <= b <= length l)%nat -> length v = (b - a)%nat ->
  length (assign_slice l a b v) = length l.
Proof. intros l a b v Hab Hv. unfold assign_slice. rewrite !app_length, firstn_length, skipn_length. lia. Qed.
Lemma nth_skipn : forall (l : list nat) k j, nth j (skipn k l) O = nth (k + j) l O.
Proof.
  induction l as [|x l IH]; intros [|k] j; cbn; try reflexivity; [destruct j; reflexivity|]. apply IH.
Qed.
Lemma slice_nth : forall l a b v j, (a <= b <= length l)%nat -> length v = (b - a)%nat ->
  nth j (assign_slice l a b v) O = if ((a <=? j) && (j <? b))%nat then nth (j - a) v O else nth j l O.
Proof.
  intros l a b v j Hab Hv. unfold assign_slice.
  destruct (Nat.leb_spec a j) as [G|G]; cbn [andb].
  - rewrite app_nth2 by (rewrite firstn_length; lia). rewrite firstn_length, Nat.min_l by lia.
    destruct (Nat.ltb_spec j b) as [L|L].
    + rewrite app_nth1 by lia. reflexivity.
    + rewrite app_nth2 by lia. rewrite nth_skipn. f_equal. lia.
  - rewrite app_nth1 by (rewrite firstn_length; lia).
    rewrite <- (firstn_skipn a l) at 2. rewrite app_nth1 by (rewrite firstn_length; lia). reflexivity.
Qed.

(** Next position in a group from [a] to [b] whose left events start at [m]. *)
Definition turn (a m b i : nat) : nat :=
  if (i <? m)%nat then (if (S i <? m)%nat then S i else if (m <? b)%nat then b - 1 else a)%nat
  else if Nat.eqb i m then (if (a <? m)%nat then a else b - 1)%nat else (i - 1)%nat.

Lemma connect_group_spec : forall evs result a, (a < length evs)%nat -> length result = length evs ->
  exists m b, snd (connect_group evs result a) = b
    /\ length (fst (connect_group evs result a)) = length evs
    /\ (a <= m <= b)%nat /\ (a < b <= length evs)%nat
    /\ (forall i, (a <= i < b)%nat -> t_start (tev evs i) = t_start (tev evs a))
    /\ ((b < length evs)%nat -> t_start (tev evs b) <> t_start (tev evs a))
    /\ (forall i, nth i (fst (connect_group evs result a)) O
         = if ((a <=? i) && (i <? b))%nat then turn a m b i else nth i result O)
    /\ (forall i, (a <= i < m)%nat -> t_left (tev evs i) = false) /\ ((m < b)%nat -> t_left (tev evs m) = true).
Proof.
  intros evs result a Ha Hr.
  set (same := fun i => pt_eqb (t_start (tev evs i)) (t_start (tev evs a))).
  set (m := advance (fun i => same i && negb (t_left (tev evs i))) (length evs) (length evs) a).
  set (b := advance same (length evs) (length evs) m).
  destruct (advance_spec (fun i => same i && negb (t_left (tev evs i))) (length evs) (length evs) a ltac:(lia) ltac:(lia))
    as (A1 & A2 & A3). fold m in A1, A2, A3.
  destruct (advance_spec same (length evs) (length evs) m ltac:(lia) ltac:(lia)) as (B1 & B2 & B3).
  fold b in B1, B2, B3.
  assert (Sa : same a = true) by (apply pt_eqb_eq; reflexivity).
  assert (Hab : (a < b)%nat).
  { destruct (Nat.eq_dec m b) as [E|N]; [|lia]. destruct (Nat.eq_dec a m) as [E'|N]; [|lia].
    rewrite <- E, <- E' in B3. rewrite B3 in Sa by lia. discriminate. }
  exists m, b.
  assert (E : connect_group evs result a =
    (let has_right := (a + 1 <=? m)%nat in let has_left := (m <=? b - 1)%nat in
     let result := if has_right then assign (assign_slice result a (m - 1) (seq (a + 1) (m - 1 - a)))
                (m - 1) (if has_left then (b - 1)%nat else a) else result in
     if has_left then assign_slice (assign result m (if has_right then a else (b - 1)%nat))
           (m + 1) (b - 1 + 1) (seq m (b - 1 - m)) else result, b)) by reflexivity.
  rewrite E. clear E. cbn [fst snd]. split; [reflexivity|].
  set (hr := (a + 1 <=? m)%nat). set (hl := (m <=? b - 1)%nat). cbv zeta.
  set (r1 := if hr then assign (assign_slice result a (m - 1) (seq (a + 1) (m - 1 - a)))
                (m - 1) (if hl then (b - 1)%nat else a) else result).
  assert (L1 : length r1 = length evs).
  { unfold r1, hr. destruct (Nat.leb_spec (a + 1) m); [|exact Hr].
    rewrite assign_length, slice_length; [exact Hr|lia|apply seq_length]. }
  assert (N1 : forall i, nth i r1 O = if ((a <=? i) && (i <? m))%nat then turn a m b i else nth i result O).
  { intro i. unfold r1, hr. destruct (Nat.leb_spec (a + 1) m) as [G|G].
    - rewrite assign_nth by (rewrite slice_length by (rewrite ?seq_length; lia); lia).
      unfold turn, hl. destruct (Nat.eqb_spec i (m - 1)) as [->|N].
      + destruct (Nat.leb_spec a (m - 1)); [|lia]. destruct (Nat.ltb_spec (m - 1) m); [|lia].
        destruct (Nat.ltb_spec (S (m - 1)) m); [lia|]. cbn [andb].
        destruct (Nat.leb_spec m (b - 1)); destruct (Nat.ltb_spec m b); try lia.
      + rewrite slice_nth by (rewrite ?seq_length; lia).
        destruct (Nat.leb_spec a i); cbn [andb]; [|reflexivity].
        destruct (Nat.ltb_spec i (m - 1)); destruct (Nat.ltb_spec i m); try lia; try reflexivity.
        destruct (Nat.ltb_spec (S i) m); [|lia]. rewrite seq_nth by lia. lia.
    - destruct (Nat.leb_spec a i); destruct (Nat.ltb_spec i m); try lia; reflexivity. }
  set (r2 := if hl then assign_slice (assign r1 m (if hr then a else (b - 1)%nat))
           (m + 1) (b - 1 + 1) (seq m (b - 1 - m)) else r1).
  split.
  { unfold r2, hl. destruct (Nat.leb_spec m (b - 1)); [|exact L1].
    rewrite slice_length; rewrite ?assign_length, ?seq_length; lia. }
  split; [lia|]. split; [lia|].
  split.
  { intros i Hi. apply pt_eqb_eq. destruct (Nat.lt_ge_cases i m) as [L|G].
    - specialize (A2 i ltac:(lia)). apply andb_prop in A2. apply A2.
    - apply (B2 i). lia. }
  split.
  { intros L E. specialize (B3 L). unfold same in B3. apply pt_eqb_eq in E. rewrite E in B3. discriminate. }
  split; [|split].
  2:{ intros i Hi. specialize (A2 i ltac:(lia)). apply andb_prop in A2. destruct A2 as (_ & A2). destruct (t_left (tev evs i)); [discriminate A2|reflexivity]. }
  2:{ intros L. specialize (A3 ltac:(lia)). rewrite (B2 m ltac:(lia)) in A3. cbn in A3. destruct (t_left (tev evs m)); [reflexivity|discriminate A3]. }
  intro i. unfold r2, hl. destruct (Nat.leb_spec m (b - 1)) as [G|G].
  - rewrite slice_nth by (rewrite ?assign_length, ?seq_length; lia).
    rewrite assign_nth by lia. rewrite N1. unfold turn, hr.
    destruct (Nat.leb_spec (m + 1) i); destruct (Nat.ltb_spec i (b - 1 + 1)); cbn [andb].
    + destruct (Nat.leb_spec a i); [|lia]. destruct (Nat.ltb_spec i b); [|lia]. cbn [andb].
      destruct (Nat.ltb_spec i m); [lia|]. destruct (Nat.eqb_spec i m); [lia|]. rewrite seq_nth by lia. lia.
    + destruct (Nat.eqb_spec i m); [lia|]. destruct (Nat.leb_spec a i); [|lia].
      destruct (Nat.ltb_spec i m); [lia|]. destruct (Nat.ltb_spec i b); [lia|]. reflexivity.
    + destruct (Nat.eqb_spec i m) as [->|N].
      * destruct (Nat.leb_spec a m); [|lia]. destruct (Nat.ltb_spec m b); [|lia]. cbn [andb].
        rewrite Nat.ltb_irrefl. destruct (Nat.leb_spec (a + 1) m); destruct (Nat.ltb_spec a m); try lia.
      * destruct (Nat.leb_spec a i); cbn [andb]; [|reflexivity].
        destruct (Nat.ltb_spec i m); [|lia]. destruct (Nat.ltb_spec i b); [|lia]. reflexivity.
    + destruct (Nat.eqb_spec i m); [lia|]. destruct (Nat.leb_spec a i); cbn [andb]; [|reflexivity].
      destruct (Nat.ltb_spec i m); [lia|]. destruct (Nat.ltb_spec i b); [lia|]. reflexivity.
  - rewrite N1. assert (m = b) by lia. subst m. rewrite H in *. reflexivity.
Qed.

(** A list of positions made of cycles on runs of consecutive positions up to [n]. *)
Definition cycles (evs : list traced) (c : list nat) (n : nat) : Prop :=
  forall i, (i < n)%nat -> exists a m b, (a <= i < b)%nat /\ (a <= m <= b)%nat /\ (b <= n)%nat
    /\ (forall j, (a <= j < b)%nat -> nth j c O = turn a m b j /\ t_start (tev evs j) = t_start (tev evs a))
    /\ ((b < length evs)%nat -> t_start (tev evs b) <> t_start (tev evs a))
    /\ ((0 < a)%nat -> t_start (tev evs (a - 1)) <> t_start (tev evs a))
    /\ (forall j, (a <= j < m)%nat -> t_left (tev evs j) = false) /\ ((m < b)%nat -> t_left (tev evs m) = true).
Lemma connect_from_spec : forall evs fuel result a, (a <= length evs)%nat -> (length evs < a + fuel)%nat ->
  length result = length evs -> cycles evs result a ->
  ((0 < a < length evs)%nat -> t_start (tev evs (a - 1)) <> t_start (tev evs a)) ->
  exists c, connect_from evs fuel result a = Ok c /\ length c = length evs /\ cycles evs c (length evs).
Proof.
  intros evs fuel. induction fuel as [|f IH]; intros result a Ha Hf Hr C Hc; [lia|]. cbn [connect_from].
  destruct (Nat.ltb_spec a (length evs)) as [G|G].
  - destruct (connect_group_spec evs result a G Hr) as (m & b & Eb & El & Hm & Hb & Sb & Nb & Nt & Rs & Ls).
    destruct (connect_group evs result a) as [r next]. cbn [fst snd] in *. subst next.
    apply IH; [lia|lia|exact El| |].
    + intros i Hi. destruct (Nat.lt_ge_cases i a) as [L|Ge].
      * destruct (C i L) as (a' & m' & b' & H1 & H2 & H3 & H4 & H5 & H6).
        exists a', m', b'. split; [exact H1|]. split; [exact H2|]. split; [lia|]. split; [|split; assumption].
        intros j Hj. rewrite Nt. destruct (Nat.leb_spec a j); [lia|]. cbn [andb]. apply H4, Hj.
      * exists a, m, b. split; [lia|]. split; [lia|]. split; [lia|].
        split; [|split; [exact Nb|split; [intro; apply Hc; lia|split; assumption]]].
        intros j Hj. split; [|apply Sb, Hj]. rewrite Nt.
        destruct (Nat.leb_spec a j); [|lia]. destruct (Nat.ltb_spec j b); [|lia]. reflexivity.
    + intros L. rewrite (Sb (b - 1)%nat) by lia. intro E. apply Nb; [lia|]. symmetry. exact E.
  - exists result. split; [reflexivity|]. split; [exact Hr|]. replace (length evs) with a by lia. exact C.
Qed.

(** Position in the cycle of a group. *)
Definition rank (a m b i : nat) : nat := if (i <? m)%nat then (i - a)%nat else (m - a + (b - 1 - i))%nat.
Lemma rank_lt : forall a m b i, (a <= m <= b)%nat -> (a <= i < b)%nat -> (rank a m b i < b - a)%nat.
Proof. intros a m b i Hm Hi. unfold rank. destruct (Nat.ltb_spec i m); lia. Qed.
Lemma rank_inj : forall a m b i j, (a <= m <= b)%nat -> (a <= i < b)%nat -> (a <= j < b)%nat ->
  rank a m b i = rank a m b j -> i = j.
Proof.
  intros a m b i j Hm Hi Hj. unfold rank. destruct (Nat.ltb_spec i m); destruct (Nat.ltb_spec j m); lia.
Qed.
Lemma turn_in : forall a m b i, (a <= m <= b)%nat -> (a <= i < b)%nat -> (a <= turn a m b i < b)%nat.
Proof.
  intros a m b i Hm Hi. unfold turn. destruct (Nat.ltb_spec i m).
  - destruct (Nat.ltb_spec (S i) m); [lia|]. destruct (Nat.ltb_spec m b); lia.
  - destruct (Nat.eqb_spec i m); [|lia]. destruct (Nat.ltb_spec a m); lia.
Qed.
Lemma turn_rank : forall a m b i, (a <= m <= b)%nat -> (a <= i < b)%nat ->
  rank a m b (turn a m b i) = (if Nat.eqb (S (rank a m b i)) (b - a) then 0 else S (rank a m b i))%nat.
Proof.
  intros a m b i Hm Hi. unfold turn, rank. destruct (Nat.ltb_spec i m).
  - destruct (Nat.ltb_spec (S i) m).
    + destruct (Nat.ltb_spec (S i) m); [|lia]. destruct (Nat.eqb_spec (S (i - a)) (b - a)); lia.
    + destruct (Nat.ltb_spec m b).
      * destruct (Nat.ltb_spec (b - 1) m); [lia|]. destruct (Nat.eqb_spec (S (i - a)) (b - a)); lia.
      * destruct (Nat.ltb_spec a m); [|lia]. destruct (Nat.eqb_spec (S (i - a)) (b - a)); lia.
  - destruct (Nat.eqb_spec i m).
    + destruct (Nat.eqb_spec (S (m - a + (b - 1 - i))) (b - a)); [|lia].
      destruct (Nat.ltb_spec a m).
      * destruct (Nat.ltb_spec a m); lia.
      * destruct (Nat.ltb_spec (b - 1) m); lia.
    + destruct (Nat.ltb_spec (i - 1) m); [lia|].
      destruct (Nat.eqb_spec (S (m - a + (b - 1 - i))) (b - a)); lia.
Qed.
Lemma turn_inj : forall a m b i j, (a <= m <= b)%nat -> (a <= i < b)%nat -> (a <= j < b)%nat ->
  turn a m b i = turn a m b j -> i = j.
Proof.
  intros a m b i j Hm Hi Hj E. apply (f_equal (rank a m b)) in E.
  rewrite !turn_rank in E by assumption. apply (rank_inj a m b); try assumption.
  pose proof (rank_lt a m b i Hm Hi). pose proof (rank_lt a m b j Hm Hj).
  destruct (Nat.eqb_spec (S (rank a m b i)) (b - a)); destruct (Nat.eqb_spec (S (rank a m b j)) (b - a)); lia.
Qed.

Section Group.
Variables (c : list nat) (a m b : nat).
Hypothesis Hm : (a <= m <= b)%nat.
Hypothesis Hc : forall j, (a <= j < b)%nat -> nth j c O = turn a m b j.

Lemma follow_in : forall k i, (a <= i < b)%nat -> (a <= follow k c i < b)%nat.
Proof.
  induction k as [|k IH]; intros i Hi; [exact Hi|]. cbn. apply IH. rewrite Hc by exact Hi. apply turn_in; assumption.
Qed.
Lemma follow_rank : forall k i, (a <= i < b)%nat ->
  rank a m b (follow k c i) = ((rank a m b i + k) mod (b - a))%nat.
Proof.
  induction k as [|k IH]; intros i Hi.
  - cbn. rewrite Nat.add_0_r, Nat.mod_small; [reflexivity|]. apply rank_lt; assumption.
  - cbn [follow]. assert (Ti := turn_in a m b i Hm Hi). rewrite <- Hc in Ti by exact Hi.
    rewrite IH by exact Ti. rewrite Hc by exact Hi. rewrite turn_rank by assumption.
    destruct (Nat.eqb_spec (S (rank a m b i)) (b - a)) as [E|E].
    + replace (rank a m b i + S k)%nat with (k + 1 * (b - a))%nat by lia. rewrite Nat.mod_add by lia.
      f_equal.
    + f_equal. lia.
Qed.
Lemma follow_all : forall i j, (a <= i < b)%nat -> (a <= j < b)%nat ->
  exists k, (0 < k <= b - a)%nat /\ follow k c i = j.
Proof.
  intros i j Hi Hj. pose proof (rank_lt a m b i Hm Hi) as Li. pose proof (rank_lt a m b j Hm Hj) as Lj.
  exists (if (rank a m b i <? rank a m b j)%nat then rank a m b j - rank a m b i
          else rank a m b j + (b - a) - rank a m b i)%nat.
  split; [destruct (Nat.ltb_spec (rank a m b i) (rank a m b j)); lia|].
  apply (rank_inj a m b); try assumption; [apply follow_in; exact Hi|].
  rewrite follow_rank by exact Hi.
  destruct (Nat.ltb_spec (rank a m b i) (rank a m b j)) as [L|L].
  - rewrite Nat.mod_small by lia. lia.
  - replace (rank a m b i + (rank a m b j + (b - a) - rank a m b i))%nat with (rank a m b j + 1 * (b - a))%nat by lia.
    rewrite Nat.mod_add by lia. apply Nat.mod_small. lia.
Qed.
(** First step at which a test holds, if it holds anywhere in the group. *)
Lemma next_from_spec : forall processed i fuel t, (a <= i < b)%nat -> (t + fuel = b - a)%nat -> (0 < fuel)%nat ->
  (forall k, (0 < k <= t)%nat -> nth (follow k c i) processed false = true) ->
  exists r, next_event_from fuel i (follow t c i) processed c = Ok r
    /\ match r with
       | Some j => (a <= j < b)%nat /\ nth j processed false = false
       | None => forall j, (a <= j < b)%nat -> nth j processed false = true
       end.
Proof.
  intros processed i fuel. induction fuel as [|f IH]; intros t Hi Ht Hf Hp; [lia|].
  cbn [next_event_from]. rewrite <- follow_last.
  assert (In_ := follow_in (S t) i Hi).
  destruct (nth (follow (S t) c i) processed false) eqn:P; cbn [negb].
  - destruct (Nat.eqb_spec (follow (S t) c i) i) as [E|E].
    + exists None. split; [reflexivity|]. intros j Hj.
      destruct (follow_all i j Hi Hj) as (k & Hk & <-).
      assert (Em : (rank a m b i + S t) mod (b - a) = rank a m b i).
      { rewrite <- (follow_rank (S t) i Hi). rewrite E. reflexivity. }
      pose proof (rank_lt a m b i Hm Hi) as Li.
      assert (S t = b - a)%nat.
      { destruct (Nat.lt_ge_cases (rank a m b i + S t) (b - a)) as [L|L].
        - rewrite Nat.mod_small in Em by exact L. lia.
        - replace (rank a m b i + S t)%nat with ((rank a m b i + S t - (b - a)) + 1 * (b - a))%nat in Em by lia.
          rewrite Nat.mod_add in Em by lia. destruct (Nat.lt_ge_cases (rank a m b i + S t - (b - a)) (b - a)) as [L'|L'].
          + rewrite Nat.mod_small in Em by exact L'. lia.
          + lia. }
      destruct (Nat.eq_dec k (S t)) as [->|N]; [exact P|]. apply Hp. lia.
    + destruct f as [|f].
      * exfalso. apply E. apply (rank_inj a m b); try assumption. rewrite follow_rank by exact Hi.
        replace (rank a m b i + S t)%nat with (rank a m b i + 1 * (b - a))%nat by lia.
        rewrite Nat.mod_add by lia. apply Nat.mod_small, rank_lt; assumption.
      * apply IH; [exact Hi|lia|lia|]. intros k Hk. destruct (Nat.eq_dec k (S t)) as [->|N]; [exact P|]. apply Hp. lia.
  - exists (Some (follow (S t) c i)). split; [reflexivity|]. split; assumption.
Qed.
End Group.
Lemma next_event_from_more : forall f f' e x p c r, (f <= f')%nat ->
  next_event_from f e x p c = Ok r -> next_event_from f' e x p c = Ok r.
Proof.
  induction f as [|f IH]; intros f' e x p c r Hf H; [discriminate|].
  destruct f' as [|f']; [lia|]. cbn [next_event_from] in *.
  destruct (negb (nth (nth x c O) p false)); [exact H|].
  destruct (Nat.eqb (nth x c O) e); [exact H|]. apply IH; [lia|exact H].
Qed.

Definition starts (evs : list traced) : list point := map t_start evs.
Lemma starts_vertex : forall evs i, vertex (starts evs) i = t_start (tev evs i).
Proof. intros evs i. unfold vertex, starts, tev. change (Pt 0 0) with (t_start no_traced). apply map_nth. Qed.

Lemma connectivity_cycles : forall evs, exists c, events_to_connectivity evs = Ok c
  /\ length c = length evs /\ cycles evs c (length evs).
Proof.
  intro evs. unfold events_to_connectivity.
  apply connect_from_spec; [lia|lia|apply repeat_length| |lia]. intros i Hi. lia.
Qed.
(** The run of a position is its group. *)
Lemma group_of : forall evs a b i, grouped (starts evs) -> (a <= i < b)%nat -> (b <= length evs)%nat ->
  (forall j, (a <= j < b)%nat -> t_start (tev evs j) = t_start (tev evs a)) ->
  ((b < length evs)%nat -> t_start (tev evs b) <> t_start (tev evs a)) ->
  ((0 < a)%nat -> t_start (tev evs (a - 1)) <> t_start (tev evs a)) ->
  forall j, (j < length evs)%nat -> t_start (tev evs j) = t_start (tev evs i) -> (a <= j < b)%nat.
Proof.
  intros evs a b i G Hi Hb Hs Nb Na j Hj E. rewrite (Hs i Hi) in E.
  assert (Ln : length (starts evs) = length evs) by apply map_length.
  destruct (Nat.lt_ge_cases j a) as [L|L].
  - exfalso. apply Na; [lia|]. rewrite <- E, <- !starts_vertex.
    apply (G j (a - 1)%nat a); try lia. rewrite !starts_vertex. exact E.
  - destruct (Nat.lt_ge_cases j b) as [L'|L']; [lia|]. exfalso. apply Nb; [lia|]. rewrite <- !starts_vertex.
    apply (G a b j); try lia. rewrite !starts_vertex. congruence.
Qed.
Theorem connectivity_correct : forall evs, exists c, events_to_connectivity evs = Ok c
  /\ Permutation c (seq 0 (length evs))
  /\ (forall i, (i < length evs)%nat -> t_start (tev evs (nth i c O)) = t_start (tev evs i))
  /\ (grouped (starts evs) -> forall i j, (i < length evs)%nat -> (j < length evs)%nat ->
        t_start (tev evs i) = t_start (tev evs j) -> exists k, (0 < k <= length evs)%nat /\ follow k c i = j).
Proof.
  intro evs. destruct (connectivity_cycles evs) as (c & E & Ln & C). exists c. split; [exact E|]. split; [|split].
  - assert (In_ : forall i, (i < length evs)%nat -> (nth i c O < length evs)%nat).
    { intros i Hi. destruct (C i Hi) as (a & m & b & H1 & H2 & H3 & H4 & _).
      destruct (H4 i H1) as [-> _]. pose proof (turn_in a m b i H2 H1). lia. }
    symmetry. apply NoDup_Permutation_bis; [apply seq_NoDup|rewrite seq_length; lia|].
    intros x Hx. apply in_seq in Hx. destruct (C x ltac:(lia)) as (a & m & b & H1 & H2 & H3 & H4 & _).
    (* the predecessor in the cycle *)
    destruct (follow_all c a m b H2 (fun j Hj => proj1 (H4 j Hj)) x x H1 H1) as (k & Hk & F).
    destruct k as [|k]; [lia|]. rewrite follow_last in F. rewrite <- F. apply nth_In. rewrite Ln.
    pose proof (follow_in c a m b H2 (fun j Hj => proj1 (H4 j Hj)) k x H1). lia.
  - intros i Hi. destruct (C i Hi) as (a & m & b & H1 & H2 & H3 & H4 & _).
    destruct (H4 i H1) as [En Es]. rewrite Es, En. apply H4. apply turn_in; assumption.
  - intros G i j Hi Hj Eij. destruct (C i Hi) as (a & m & b & H1 & H2 & H3 & H4 & H5 & H6 & _).
    assert (Hjb : (a <= j < b)%nat).
    { apply (group_of evs a b i G H1 H3 (fun j Hj => proj2 (H4 j Hj)) H5 H6 j Hj). congruence. }
    destruct (follow_all c a m b H2 (fun j Hj => proj1 (H4 j Hj)) i j H1 Hjb) as (k & Hk & F).
    exists k. split; [lia|exact F].
Qed.
Theorem next_event_correct : forall evs c processed i, grouped (starts evs) ->
  events_to_connectivity evs = Ok c -> (i < length evs)%nat ->
  exists r, next_event i processed c = Ok r
    /\ match r with
       | Some j => (j < length evs)%nat /\ t_start (tev evs j) = t_start (tev evs i) /\ nth j processed false = false
       | None => forall j, (j < length evs)%nat -> t_start (tev evs j) = t_start (tev evs i) ->
           nth j processed false = true
       end.
Proof.
  intros evs c processed i G E Hi. destruct (connectivity_cycles evs) as (c' & E' & Ln & C).
  rewrite E in E'. injection E' as <-.
  destruct (C i Hi) as (a & m & b & H1 & H2 & H3 & H4 & H5 & H6 & _).
  destruct (next_from_spec c a m b H2 (fun j Hj => proj1 (H4 j Hj)) processed i (b - a) 0 H1 ltac:(lia) ltac:(lia))
    as (r & Er & Hr); [intros; lia|].
  exists r. split.
  - unfold next_event. eapply next_event_from_more; [|exact Er]. lia.
  - destruct r as [j|].
    + destruct Hr as [Hj Hp]. split; [lia|]. split; [|exact Hp].
      rewrite (proj2 (H4 j Hj)), (proj2 (H4 i H1)). reflexivity.
    + intros j Hj Ej. apply Hr. apply (group_of evs a b i G H1 H3 (fun j Hj => proj2 (H4 j Hj)) H5 H6 j Hj Ej).
Qed.
