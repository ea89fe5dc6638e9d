(** Facts about the stable sort used to model Python's [sorted]. *)
From Coq Require Import Permutation Sorting.Sorted.
From Verif Require Import QcTac Geom Spec GeomFacts Relation.

Section SortFacts.
  Context {A : Type} (ltb : A -> A -> bool).

  Lemma insert_sorted_perm : forall x l, Permutation (insert_sorted ltb x l) (x :: l).
  Proof.
    intros x l. induction l as [|y l IH]; cbn; [reflexivity|].
    destruct (ltb y x); [|reflexivity].
    rewrite IH. apply perm_swap.
  Qed.
  Lemma sort_by_perm : forall l, Permutation (sort_by ltb l) l.
  Proof.
    induction l as [|x l IH]; cbn; [reflexivity|].
    rewrite insert_sorted_perm. constructor. exact IH.
  Qed.
  Lemma sort_by_in : forall l x, In x (sort_by ltb l) <-> In x l.
  Proof.
    intros l x. split; apply Permutation_in; [|symmetry]; apply sort_by_perm.
  Qed.
  Lemma sort_by_length : forall l, length (sort_by ltb l) = length l.
  Proof. intro l. apply Permutation_length, sort_by_perm. Qed.

  (** [le x y := ltb y x = false]; sorted when [le] is transitive and total on [D]. *)
  Variable D : A -> Prop.
  Hypothesis le_trans : forall x y z, D x -> D y -> D z ->
    ltb y x = false -> ltb z y = false -> ltb z x = false.
  Hypothesis asym : forall x y, D x -> D y -> ltb x y = true -> ltb y x = false.

  Lemma insert_sorted_sorted : forall x l, D x -> Forall D l ->
    StronglySorted (fun a b => ltb b a = false) l ->
    StronglySorted (fun a b => ltb b a = false) (insert_sorted ltb x l).
  Proof.
    intros x l Dx Dl Hs. induction Hs as [|y l Hs IH Hy]; cbn.
    - constructor; constructor.
    - inversion Dl as [|y' l' Dy Dl']; subst.
      destruct (ltb y x) eqn:E.
      + constructor; [apply IH; exact Dl'|].
        rewrite Forall_forall in Hy |- *. intros z Hz.
        apply (Permutation_in _ (insert_sorted_perm x l)) in Hz. destruct Hz as [<-|Hz].
        * apply asym; assumption.
        * apply Hy; exact Hz.
      + constructor; [constructor; assumption|].
        constructor; [exact E|].
        rewrite Forall_forall in Hy, Dl' |- *. intros z Hz.
        apply (le_trans x y z); auto.
  Qed.
  Lemma sort_by_sorted : forall l, Forall D l ->
    StronglySorted (fun a b => ltb b a = false) (sort_by ltb l).
  Proof.
    induction l as [|x l IH]; intro Dl; cbn; [constructor|].
    inversion Dl as [|x' l' Dx Dl']; subst. apply insert_sorted_sorted; [exact Dx| |exact (IH Dl')].
    rewrite Forall_forall in *. intros z Hz. apply (sort_by_in l) in Hz. auto.
  Qed.
End SortFacts.

Lemma sorted_unique : forall (A : Type) (le : A -> A -> Prop),
  (forall x y, le x y -> le y x -> x = y) ->
  forall l l', StronglySorted le l -> StronglySorted le l' -> Permutation l l' -> l = l'.
Proof.
  intros A le anti l. induction l as [|x l IH]; intros l' H H' P.
  - apply Permutation_nil in P. subst. reflexivity.
  - destruct l' as [|y l']; [symmetry in P; apply Permutation_nil in P; discriminate|].
    inversion H as [|x1 l1 Hs Hx]; subst. inversion H' as [|y1 l1 Hs' Hy]; subst.
    assert (Exy : x = y).
    { assert (Hix : In x (y :: l')) by (eapply Permutation_in; [exact P|left; reflexivity]).
      assert (Hiy : In y (x :: l)) by (eapply Permutation_in; [symmetry; exact P|left; reflexivity]).
      destruct Hix as [->|Hix]; [reflexivity|]. destruct Hiy as [->|Hiy]; [reflexivity|].
      rewrite Forall_forall in Hx, Hy. apply anti; auto. }
    subst y. f_equal. apply IH; try assumption. apply Permutation_cons_inv in P. exact P.
Qed.

Lemma pt_ltb_false : forall p q, pt_ltb p q = false <-> ple q p.
Proof. intros p q. unfold ple. destruct (pt_ltb_spec p q); split; try tauto; discriminate. Qed.
Lemma pt_ltb_true : forall p q, pt_ltb p q = true <-> plt p q.
Proof. intros p q. destruct (pt_ltb_spec p q); split; try tauto; discriminate. Qed.

Lemma sorted_points_sorted : forall l, StronglySorted ple (sorted_points l).
Proof.
  intro l. unfold sorted_points.
  assert (H : StronglySorted (fun a b => pt_ltb b a = false) (sort_by pt_ltb l)).
  { apply (sort_by_sorted pt_ltb (fun _ => True)).
    - intros x y z _ _ _. rewrite !pt_ltb_false. apply ple_trans.
    - intros x y _ _. rewrite pt_ltb_true, pt_ltb_false. apply plt_ple.
    - apply Forall_forall. auto. }
  induction H as [|x l' H IH Hx]; constructor; [exact IH|].
  rewrite Forall_forall in *. intros z Hz. apply pt_ltb_false. auto.
Qed.

Lemma sorted_points_unique : forall l l', Permutation l l' -> StronglySorted ple l' ->
  sorted_points l = l'.
Proof.
  intros l l' P H. apply (sorted_unique _ ple ple_antisym); [apply sorted_points_sorted|exact H|].
  rewrite <- P. apply sort_by_perm.
Qed.
