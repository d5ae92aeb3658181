(** Scalars that Python can compare with [>]: a ring with a compatible total order. *)
From Coq Require Import List Arith Lia ZArith Ring Reals Lra.
From Verif Require Import Alg.
Import ListNotations.

Record OrdRing : Type := {
  oring :> StarRing;
  gtb : oring -> oring -> bool;          (* Python's [x > y] *)
  gtb_irrefl : forall x, gtb x x = false;
  gtb_trans : forall x y z, gtb x y = true -> gtb y z = true -> gtb x z = true;
  gtb_total : forall x y, gtb x y = false -> gtb y x = false -> x = y;
  gtb_add : forall x y z, gtb x y = true -> gtb (radd x z) (radd y z) = true;
  gtb_mul : forall x y, gtb x r0 = true -> gtb y r0 = true -> gtb (rmul x y) r0 = true
}.
Arguments gtb {_} _ _.

Section O.
Variable K : OrdRing.
Add Ring Kring : (r_theory K).

Definition ole (x y : K) : Prop := gtb x y = false.
Definition olt (x y : K) : Prop := gtb y x = true.

Lemma ole_refl x : ole x x.
Proof. apply gtb_irrefl. Qed.

Lemma olt_asym x y : olt x y -> olt y x -> False.
Proof.
  unfold olt. intros H1 H2. pose proof (gtb_trans K _ _ _ H1 H2) as H.
  rewrite gtb_irrefl in H. discriminate.
Qed.

Lemma ole_or x y : ole x y \/ olt y x.
Proof. unfold ole, olt. destruct (gtb x y); auto. Qed.

Lemma olt_ole x y : olt x y -> ole x y.
Proof.
  intros H. destruct (ole_or x y) as [?|H']; auto. destruct (olt_asym _ _ H H').
Qed.

Lemma ole_antisym x y : ole x y -> ole y x -> x = y.
Proof. apply gtb_total. Qed.

Lemma ole_olt_trans x y z : ole x y -> olt y z -> olt x z.
Proof.
  intros H1 H2. destruct (ole_or z x) as [H3|H3]; [|exact H3].
  destruct (ole_or y x) as [H4|H4].
  - rewrite (ole_antisym x y) by auto. auto.
  - exact (gtb_trans K _ _ _ H2 H4).
Qed.

Lemma olt_ole_trans x y z : olt x y -> ole y z -> olt x z.
Proof.
  intros H1 H2. destruct (ole_or z y) as [H3|H3].
  - rewrite (ole_antisym z y) by auto. auto.
  - exact (gtb_trans K _ _ _ H3 H1).
Qed.

Lemma ole_trans x y z : ole x y -> ole y z -> ole x z.
Proof.
  intros H1 H2. destruct (ole_or x z) as [?|H]; auto.
  pose proof (olt_ole_trans _ _ _ H H1) as H3.
  unfold ole in H2. unfold olt in H3. congruence.
Qed.

Lemma olt_not_ole x y : olt x y -> ole y x -> False.
Proof. unfold olt, ole. congruence. Qed.

Lemma olt_add x y z : olt x y -> olt (radd x z) (radd y z).
Proof. apply gtb_add. Qed.

Lemma ole_add x y z : ole x y -> ole (radd x z) (radd y z).
Proof.
  intros H. destruct (ole_or (radd x z) (radd y z)) as [?|H']; auto.
  apply (olt_add _ _ (ropp z)) in H'.
  replace (radd (radd y z) (ropp z)) with y in H' by ring.
  replace (radd (radd x z) (ropp z)) with x in H' by ring.
  destruct (olt_not_ole _ _ H' H).
Qed.

Lemma sum_nonneg (l : list K) : (forall x, In x l -> ole r0 x) -> ole r0 (sum_list l).
Proof.
  induction l as [|x l IH]; intros H; [apply ole_refl|]. cbn.
  apply ole_trans with (y := radd r0 (sum_list l)).
  - replace (radd r0 (sum_list l)) with (sum_list l) by ring. apply IH. intros; apply H; right; auto.
  - apply ole_add. apply H. left; auto.
Qed.
End O.
Arguments ole {K} _ _. Arguments olt {K} _ _.

Definition Z_ord : OrdRing.
Proof.
  refine {| oring := Z_star; gtb := Z.gtb |}; cbn.
  - intros x. rewrite Z.gtb_ltb. apply Z.ltb_irrefl.
  - intros x y z. rewrite !Z.gtb_ltb, !Z.ltb_lt. lia.
  - intros x y. rewrite !Z.gtb_ltb, !Z.ltb_ge. lia.
  - intros x y z. rewrite !Z.gtb_ltb, !Z.ltb_lt. lia.
  - intros x y. rewrite !Z.gtb_ltb, !Z.ltb_lt. apply Z.mul_pos_pos.
Defined.

(** Real numbers with trivial involution. *)
Definition R_star : StarRing.
Proof.
  refine {| car := R; r0 := 0%R; r1 := 1%R; radd := Rplus; rmul := Rmult;
            rsub := Rminus; ropp := Ropp; rconj := fun x => x |}.
  - exact RTheory.
  - reflexivity.
  - reflexivity.
  - reflexivity.
Defined.

Definition R_ord : OrdRing.
Proof.
  refine {| oring := R_star; gtb := fun x y => if Rgt_dec x y then true else false |}; cbn.
  - intros x. destruct (Rgt_dec x x); auto. exfalso. lra.
  - intros x y z. repeat destruct (Rgt_dec _ _); auto; try discriminate; exfalso; lra.
  - intros x y. repeat destruct (Rgt_dec _ _); try discriminate; intros; lra.
  - intros x y z. repeat destruct (Rgt_dec _ _); auto; try discriminate; exfalso; lra.
  - intros x y. repeat destruct (Rgt_dec _ _); auto; try discriminate; intros; exfalso.
    apply n. apply Rmult_gt_0_compat; auto.
Defined.
