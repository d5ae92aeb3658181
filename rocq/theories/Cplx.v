(** Complex numbers as pairs of reals: the scalars numpy approximates. *)
From Coq Require Import List Arith Lia Ring Reals Lra.
From Verif Require Import Alg.
Import ListNotations.
Local Open Scope R_scope.

Definition cplx : Type := (R * R)%type.
Definition Cadd (x y : cplx) : cplx := (fst x + fst y, snd x + snd y).
Definition Cmul (x y : cplx) : cplx := (fst x * fst y - snd x * snd y, fst x * snd y + snd x * fst y).
Definition Copp (x : cplx) : cplx := (- fst x, - snd x).
Definition Csub (x y : cplx) : cplx := (fst x - fst y, snd x - snd y).
Definition Cconj (x : cplx) : cplx := (fst x, - snd x).

Lemma Ceq0 (x y : cplx) : fst x = fst y -> snd x = snd y -> x = y.
Proof. destruct x, y; cbn. intros -> ->. reflexivity. Qed.
Lemma C_ring : ring_theory (0, 0) (1, 0) Cadd Cmul Csub Copp (@eq cplx).
Proof.
  split; intros; apply Ceq0; unfold Cadd, Cmul, Csub, Copp; cbn [fst snd]; ring.
Qed.

Definition C_star : StarRing.
Proof.
  refine {| car := cplx; r0 := (0, 0); r1 := (1, 0); radd := Cadd; rmul := Cmul; rsub := Csub; ropp := Copp; rconj := Cconj; r_theory := C_ring |};
  intros; apply Ceq0; unfold Cadd, Cmul, Cconj; cbn [fst snd]; ring.
Defined.

Definition RtoC (x : R) : C_star := (x, 0).
Definition C_i : C_star := (0, 1).
Definition Cnorm2 (x : C_star) : R := fst x * fst x + snd x * snd x.
(** 1/x, for x not zero *)
Definition Cinv (x : C_star) : C_star := (fst x / Cnorm2 x, - snd x / Cnorm2 x).
(** e^x *)
Definition Cexp (x : C_star) : C_star := (exp (fst x) * cos (snd x), exp (fst x) * sin (snd x)).

Add Ring Cring : (r_theory C_star).

Lemma Ceq (x y : C_star) : fst x = fst y -> snd x = snd y -> x = y.
Proof. destruct x, y; cbn. intros -> ->. reflexivity. Qed.
Lemma Cnorm2_pos (x : C_star) : x <> r0 -> 0 < Cnorm2 x.
Proof.
  intros H. unfold Cnorm2. destruct (Req_dec (fst x) 0) as [E|E]; [destruct (Req_dec (snd x) 0) as [E'|E']|].
  - destruct H. apply Ceq; auto.
  - pose proof (Rle_0_sqr (fst x)) as P. pose proof (Rsqr_pos_lt _ E') as Q. unfold Rsqr in *. lra.
  - pose proof (Rle_0_sqr (snd x)) as P. pose proof (Rsqr_pos_lt _ E) as Q. unfold Rsqr in *. lra.
Qed.
Lemma Cinv_r (x : C_star) : x <> r0 -> rmul x (Cinv x) = r1.
Proof.
  intros H. pose proof (Cnorm2_pos x H) as P. unfold Cinv. apply Ceq; cbn [rmul C_star Cmul fst snd r1]; unfold Cnorm2 in *; field; lra.
Qed.
Lemma Cmul_conj (x : C_star) : rmul (rconj x) x = RtoC (Cnorm2 x).
Proof. apply Ceq; cbn; unfold Cnorm2; ring. Qed.
Lemma RtoC_add x y : RtoC (x + y) = radd (RtoC x) (RtoC y).
Proof. apply Ceq; cbn; ring. Qed.
Lemma RtoC_mul x y : RtoC (x * y) = rmul (RtoC x) (RtoC y).
Proof. apply Ceq; cbn; ring. Qed.
Lemma RtoC_sub x y : RtoC (x - y) = rsub (RtoC x) (RtoC y).
Proof. apply Ceq; cbn; ring. Qed.
Lemma RtoC_opp x : RtoC (- x) = ropp (RtoC x).
Proof. apply Ceq; cbn; ring. Qed.
Lemma RtoC_conj x : rconj (RtoC x) = RtoC x.
Proof. apply Ceq; cbn; ring. Qed.
Lemma RtoC_inj x y : RtoC x = RtoC y -> x = y.
Proof. intros H. apply (f_equal fst) in H. exact H. Qed.
Lemma C_i2 : rmul C_i C_i = ropp r1.
Proof. apply Ceq; cbn; ring. Qed.
Lemma Cexp_add x y : Cexp (radd x y) = rmul (Cexp x) (Cexp y).
Proof. apply Ceq; cbn; rewrite exp_plus; [rewrite cos_plus|rewrite sin_plus]; ring. Qed.
Lemma Cexp_conj x : Cexp (rconj x) = rconj (Cexp x).
Proof. apply Ceq; cbn; [rewrite cos_neg|rewrite sin_neg]; ring. Qed.
Lemma Cexp_0 : Cexp r0 = r1.
Proof. apply Ceq; cbn; rewrite exp_0, ?cos_0, ?sin_0; ring. Qed.

(** Sums of |x|^2. *)
Lemma sum_norm2 {A} (l : list A) (f : A -> C_star) : exists r, sumL l (fun x => rmul (rconj (f x)) (f x)) = RtoC r /\ 0 <= r /\
  ((exists x, In x l /\ f x <> r0) -> 0 < r).
Proof.
  induction l as [|x l (r & E & P & Q)].
  - exists 0. split; [reflexivity|]. split; [lra|]. intros (x & [] & _).
  - exists (Cnorm2 (f x) + r). rewrite sumL_cons, E, Cmul_conj, RtoC_add. split; [reflexivity|].
    assert (P' : 0 <= Cnorm2 (f x)). { unfold Cnorm2. pose proof (Rle_0_sqr (fst (f x))). pose proof (Rle_0_sqr (snd (f x))). unfold Rsqr in *. lra. }
    split; [lra|]. intros (y & [->|H] & N).
    + pose proof (Cnorm2_pos _ N). lra.
    + specialize (Q (ex_intro _ y (conj H N))). lra.
Qed.

(** Principal square root. *)
Definition Csqrt (z : C_star) : C_star :=
  let r := sqrt (Cnorm2 z) in
  (sqrt ((r + fst z) / 2), (if Rlt_dec (snd z) 0 then -1 else 1) * sqrt ((r - fst z) / 2)).
Lemma Csqrt_pos r : 0 <= r -> Csqrt (RtoC r) = RtoC (sqrt r).
Proof.
  intros H. unfold Csqrt, RtoC, Cnorm2. cbn [fst snd]. replace (r * r + 0 * 0) with (r * r) by ring. rewrite sqrt_square by auto.
  apply Ceq; cbn [fst snd].
  - f_equal. field.
  - replace ((r - r) / 2) with 0 by field. rewrite sqrt_0. ring.
Qed.
Lemma C_nontrivial : (r1 : C_star) <> r0.
Proof. intros H. apply (f_equal fst) in H. cbn in H. lra. Qed.
Lemma C_int (x y : C_star) : rmul x y = r0 -> x <> r0 -> y = r0.
Proof.
  intros H N. transitivity (rmul (rmul x (Cinv x)) y); [rewrite Cinv_r by auto; ring|].
  transitivity (rmul (Cinv x) (rmul x y)); [ring|]. rewrite H. ring.
Qed.
Lemma Cinv_1 : Cinv r1 = r1.
Proof. apply Ceq; cbn; unfold Cnorm2; cbn; field. Qed.
Lemma Cinv_R r : r <> 0 -> Cinv (RtoC r) = RtoC (/ r).
Proof. intros H. apply Ceq; cbn; unfold Cnorm2, RtoC; cbn; field; auto. Qed.
