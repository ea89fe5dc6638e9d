(** Order of segments in results of linear operations of any operands.  Proof
    support only, no part of /repo is modelled here. *)
From Coq Require Import Sorted.
From Verif Require Import QcTac Geom Spec SpecNode Pair Bounding Sweep Linear UnpackThms LinearProps.

Notation in_order l := (StronglySorted (fun a b => ~ segment_lt b a) l).
Lemma select_sorted : forall test swept, in_order (select test swept).
Proof. intros test (s, events). apply sorted_segments. Qed.
Lemma unpacked : forall l, in_order l -> canonical (unpack_segments l) /\ in_order (segments_of (unpack_segments l)).
Proof. intros l H. destruct (unpack_segments_canonical l) as (C1 & _ & C3 & _). rewrite C3. split; assumption. Qed.
Theorem results_sorted : forall first second o g,
  In (Ok g) [unite_multisegments o first second; symmetric_subtract_multisegments o first second; intersect_multisegments o first second] ->
  in_order (segments_of g).
Proof.
  intros first second o g [H|[H|[H|[]]]].
  - unfold unite_multisegments, linear_union, with_boxes in H. destruct (segments_box first) as [x|]; [|discriminate H]. destruct (segments_box second) as [y|]; [|discriminate H].
    destruct (disjoint_with x y); [injection H as <-; apply sorted_segments|].
    destruct (sweep_lefts o no_stop first second) as [w|]; [|discriminate H]. cbn [bind_res] in H. injection H as <-. apply select_sorted.
  - unfold symmetric_subtract_multisegments, linear_symmetric_difference, with_boxes in H. destruct (segments_box first) as [x|]; [|discriminate H]. destruct (segments_box second) as [y|]; [|discriminate H].
    destruct (disjoint_with x y); [injection H as <-; apply sorted_segments|].
    destruct (sweep_lefts o no_stop first second) as [w|]; [|discriminate H]. cbn [bind_res] in H. injection H as <-. apply unpacked, select_sorted.
  - unfold intersect_multisegments, linear_intersection, with_boxes in H. destruct (segments_box first) as [x|]; [|discriminate H]. destruct (segments_box second) as [y|]; [|discriminate H].
    destruct (disjoint_with x y); [injection H as <-; constructor|]. cbv zeta in H.
    destruct (to_coupled_segments y first) as [|k l]; [injection H as <-; constructor|]. destruct (to_coupled_segments x second) as [|k' l']; [injection H as <-; constructor|].
    destruct (sweep_lefts _ _ (k :: l) (k' :: l')) as [w|]; [|discriminate H]. cbn [bind_res] in H. injection H as <-. apply unpacked, select_sorted.
Qed.
Theorem difference_sorted : forall first second o g, subtract_multisegments o first second = Ok g ->
  g = GMultisegment first \/ canonical g /\ in_order (segments_of g).
Proof.
  intros first second o g H. unfold subtract_multisegments, linear_difference, with_boxes in H. destruct (segments_box first) as [x|]; [|discriminate H]. destruct (segments_box second) as [y|]; [|discriminate H].
  destruct (disjoint_with x y); [injection H as <-; left; reflexivity|]. cbv zeta in H.
  destruct (to_coupled_segments x second) as [|k l]; [injection H as <-; left; reflexivity|].
  destruct (sweep_lefts _ _ first (k :: l)) as [w|]; [|discriminate H]. cbn [bind_res] in H. injection H as <-. right. apply unpacked, select_sorted.
Qed.
