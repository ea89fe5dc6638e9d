(** Decision support for canonical rationals: translate goals about [Qc]
    to goals about [Q] so that [lra]/[nra] apply. No part of /repo is
    modelled here. *)
From Coq Require Export QArith Qcanon List Bool Arith ZArith Lia.
From Coq Require Import Lqa.
Export ListNotations.
#[global] Open Scope Qc_scope.

Inductive qe : Type :=
| QAt (x : Qc)
| QAdd (a b : qe)
| QSub (a b : qe)
| QMul (a b : qe)
| QOpp (a : qe)
| QZero
| QOne.

Fixpoint dQc (e : qe) : Qc :=
  match e with
  | QAt x => x
  | QAdd a b => dQc a + dQc b
  | QSub a b => dQc a - dQc b
  | QMul a b => dQc a * dQc b
  | QOpp a => - dQc a
  | QZero => 0
  | QOne => 1
  end.

Fixpoint dQ (e : qe) : Q :=
  match e with
  | QAt x => this x
  | QAdd a b => (dQ a + dQ b)%Q
  | QSub a b => (dQ a - dQ b)%Q
  | QMul a b => (dQ a * dQ b)%Q
  | QOpp a => (- dQ a)%Q
  | QZero => 0%Q
  | QOne => 1%Q
  end.

Lemma dQc_dQ : forall e, (this (dQc e) == dQ e)%Q.
Proof.
  induction e as [x|a IHa b IHb|a IHa b IHb|a IHa b IHb|a IHa| |]; cbn [dQc dQ].
  - reflexivity.
  - unfold Qcplus. cbn [this Q2Qc]. rewrite Qred_correct, IHa, IHb. reflexivity.
  - unfold Qcminus, Qcplus, Qcopp. cbn [this Q2Qc]. rewrite !Qred_correct, IHa, IHb. reflexivity.
  - unfold Qcmult. cbn [this Q2Qc]. rewrite Qred_correct, IHa, IHb. reflexivity.
  - unfold Qcopp. cbn [this Q2Qc]. rewrite Qred_correct, IHa. reflexivity.
  - reflexivity.
  - reflexivity.
Qed.

Lemma qc_lt_Q : forall a b, dQc a < dQc b <-> (dQ a < dQ b)%Q.
Proof. intros a b. unfold Qclt. rewrite !dQc_dQ. reflexivity. Qed.
Lemma qc_le_Q : forall a b, dQc a <= dQc b <-> (dQ a <= dQ b)%Q.
Proof. intros a b. unfold Qcle. rewrite !dQc_dQ. reflexivity. Qed.
Lemma qc_eq_Q : forall a b, dQc a = dQc b <-> (dQ a == dQ b)%Q.
Proof.
  intros a b. rewrite <- !dQc_dQ. split; intro H.
  - rewrite H. reflexivity.
  - apply Qc_is_canon. exact H.
Qed.

Ltac reifyQc e :=
  lazymatch e with
  | Qcplus ?a ?b => let ra := reifyQc a in let rb := reifyQc b in constr:(QAdd ra rb)
  | Qcminus ?a ?b => let ra := reifyQc a in let rb := reifyQc b in constr:(QSub ra rb)
  | Qcmult ?a ?b => let ra := reifyQc a in let rb := reifyQc b in constr:(QMul ra rb)
  | Qcopp ?a => let ra := reifyQc a in constr:(QOpp ra)
  | Q2Qc 0%Q => constr:(QZero)
  | Q2Qc 1%Q => constr:(QOne)
  | _ => constr:(QAt e)
  end.

Ltac qc2q_hyp H :=
  lazymatch type of H with
  | Qclt ?a ?b => let ra := reifyQc a in let rb := reifyQc b in
      apply (proj1 (qc_lt_Q ra rb)) in H; cbn [dQ] in H
  | Qcle ?a ?b => let ra := reifyQc a in let rb := reifyQc b in
      apply (proj1 (qc_le_Q ra rb)) in H; cbn [dQ] in H
  | @eq Qc ?a ?b => let ra := reifyQc a in let rb := reifyQc b in
      apply (proj1 (qc_eq_Q ra rb)) in H; cbn [dQ] in H
  end.

Ltac qc2q_goal :=
  lazymatch goal with
  | |- Qclt ?a ?b => let ra := reifyQc a in let rb := reifyQc b in
      apply (proj2 (qc_lt_Q ra rb)); cbn [dQ]
  | |- Qcle ?a ?b => let ra := reifyQc a in let rb := reifyQc b in
      apply (proj2 (qc_le_Q ra rb)); cbn [dQ]
  | |- @eq Qc ?a ?b => let ra := reifyQc a in let rb := reifyQc b in
      apply (proj2 (qc_eq_Q ra rb)); cbn [dQ]
  end.

Lemma Qc_nlt_le : forall a b : Qc, ~ a < b -> b <= a.
Proof. intros a b. apply Qcnot_lt_le. Qed.
Lemma Qc_nle_lt : forall a b : Qc, ~ a <= b -> b < a.
Proof. intros a b. apply Qcnot_le_lt. Qed.

Lemma Qc_lt_total : forall a b : Qc, a < b \/ a = b \/ b < a.
Proof.
  intros a b. destruct (Qclt_le_dec a b) as [H|H]; [left; exact H|].
  destruct (Qcle_lt_or_eq _ _ H) as [H'|H']; [right; right; exact H'|right; left; symmetry; exact H'].
Qed.

Ltac qc_prep :=
  repeat match goal with
  | H : _ /\ _ |- _ => destruct H
  | H : ~ (Qclt _ _) |- _ => apply Qc_nlt_le in H
  | H : ~ (Qcle _ _) |- _ => apply Qc_nle_lt in H
  end.

Ltac qc2q_all :=
  repeat match goal with
  | H : Qclt _ _ |- _ => qc2q_hyp H
  | H : Qcle _ _ |- _ => qc2q_hyp H
  | H : @eq Qc _ _ |- _ => qc2q_hyp H
  end.

Ltac qgoal :=
  lazymatch goal with
  | |- ~ _ => intro; exfalso
  | |- False => idtac
  | |- Qclt _ _ => idtac
  | |- Qcle _ _ => idtac
  | |- @eq Qc _ _ => idtac
  | |- _ => exfalso
  end.

(** [qlra]/[qnra]: linear / non-linear arithmetic on Qc. *)
Ltac qlra := qgoal; qc_prep; try qc2q_goal; qc2q_all; lra.
Ltac qnra := qgoal; qc_prep; try qc2q_goal; qc2q_all; nra.
Ltac qring := ring.

(** Boolean comparisons used by the models. *)
Definition Qc_ltb (a b : Qc) : bool := if Qclt_le_dec a b then true else false.
Definition Qc_leb (a b : Qc) : bool := negb (Qc_ltb b a).
Definition Qc_eqb (a b : Qc) : bool := if Qc_eq_dec a b then true else false.

Lemma Qc_ltb_spec : forall a b, reflect (a < b) (Qc_ltb a b).
Proof.
  intros a b. unfold Qc_ltb. destruct (Qclt_le_dec a b) as [H|H]; constructor; [exact H|].
  apply Qcle_not_lt. exact H.
Qed.
Lemma Qc_leb_spec : forall a b, reflect (a <= b) (Qc_leb a b).
Proof.
  intros a b. unfold Qc_leb. destruct (Qc_ltb_spec b a) as [H|H]; constructor.
  - apply Qclt_not_le. exact H.
  - apply Qcnot_lt_le. exact H.
Qed.
Lemma Qc_eqb_spec : forall a b, reflect (a = b) (Qc_eqb a b).
Proof. intros a b. unfold Qc_eqb. destruct (Qc_eq_dec a b); constructor; assumption. Qed.

Goal forall a b c : Qc, a < b -> b <= c -> a + 1 < c + 1.
Proof. intros. qlra. Qed.
Goal forall a b : Qc, 0 < a -> 0 < b -> 0 < a * b.
Proof. intros. qnra. Qed.
