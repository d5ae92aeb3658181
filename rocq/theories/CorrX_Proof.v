(** Proofs: the numbers in decomposed correlation functions. *)
From Coq Require Import List Arith ZArith Lia Reals Lra Bool.
From Verif Require Import Py Alg Cplx Corr_Model Corr_Spec Corr_Proof CorrX_Spec.
Import ListNotations.

(** ** Partial fractions *)
Section Fractions.
Local Open Scope R_scope.
Lemma Rsum_ext n f g : (forall i, (i < n)%nat -> f i = g i) -> Rsum n f = Rsum n g.
Proof. induction n as [|n IH]; intros H; [reflexivity|]. cbn [Rsum]. rewrite IH by (intros; apply H; lia). rewrite H by lia. reflexivity. Qed.
Lemma Rprod_ext n f g : (forall i, (i < n)%nat -> f i = g i) -> Rprod n f = Rprod n g.
Proof. induction n as [|n IH]; intros H; [reflexivity|]. cbn [Rprod]. rewrite IH by (intros; apply H; lia). rewrite H by lia. reflexivity. Qed.
Lemma Rprod_ne n f : (forall i, (i < n)%nat -> f i <> 0) -> Rprod n f <> 0.
Proof. induction n as [|n IH]; intros H; [cbn; lra|]. cbn [Rprod]. apply Rmult_integral_contrapositive_currified; auto. Qed.
Lemma Rsum_add n f g : Rsum n (fun i => f i + g i) = Rsum n f + Rsum n g.
Proof. induction n as [|n IH]; cbn [Rsum]; [ring|]. rewrite IH. ring. Qed.
Lemma Rsum_scal n c f : Rsum n (fun i => f i * c) = Rsum n f * c.
Proof. induction n as [|n IH]; cbn [Rsum]; [ring|]. rewrite IH. ring. Qed.
Lemma Rprod_div n f g : (forall i, (i < n)%nat -> g i <> 0) -> Rprod n (fun i => f i / g i) = Rprod n f / Rprod n g.
Proof.
  induction n as [|n IH]; intros H; cbn [Rprod]; [field|]. rewrite IH by (intros; apply H; lia). field. split; [apply H; lia|apply Rprod_ne; intros; apply H; lia].
Qed.
(** One factor taken out *)
Lemma Rprod_but n i f : (i < n)%nat -> Rprod n (fun j => if (j =? i)%nat then 1 else f j) * f i = Rprod n f.
Proof.
  induction n as [|n IH]; intros H; [lia|]. cbn [Rprod]. destruct (Nat.eqb_spec n i) as [->|N].
  - rewrite Rmult_1_r. f_equal. apply Rprod_ext. intros j Hj. destruct (Nat.eqb_spec j i); [lia|reflexivity].
  - rewrite <- IH by lia. ring.
Qed.
Variables p q : nat -> R.
Definition part (m i : nat) : R := Rprod m (fun j => p j - q i) / Rprod (S m) (fun j => if (j =? i)%nat then 1 else q j - q i).
Lemma fractions m x : (forall i j, (i <= m)%nat -> (j <= m)%nat -> i <> j -> q i <> q j) -> (forall i, (i <= m)%nat -> x <> q i) ->
  Rprod m (fun j => p j - x) / Rprod (S m) (fun j => q j - x) = Rsum (S m) (fun i => part m i / (q i - x)).
Proof.
  revert x. induction m as [|m IH]; intros x Hq Hx.
  - unfold part. cbn [Rprod Rsum Nat.eqb]. assert (q 0%nat - x <> 0) by (intros Z; apply (Hx 0%nat); [lia|lra]). field. auto.
  - assert (Q1 : forall y, (forall i, (i <= m)%nat -> y <> q i) -> Rprod m (fun j => p j - y) / Rprod (S m) (fun j => q j - y) = Rsum (S m) (fun i => part m i / (q i - y))) by (intros y Hy; apply IH; [intros i j Hi Hj Nij; apply Hq; lia|exact Hy]).
    assert (X0 : forall i, (i <= S m)%nat -> q i - x <> 0) by (intros i Hi Z; apply (Hx i Hi); lra).
    assert (D0 : Rprod (S m) (fun j => q j - x) <> 0) by (apply Rprod_ne; intros i Hi; apply X0; lia).
    assert (Y0 : forall i, (i <= m)%nat -> q (S m) - q i <> 0) by (intros i Hi Z; apply (Hq (S m) i); [lia|lia|lia|lra]).
    transitivity (Rprod m (fun j => p j - x) / Rprod (S m) (fun j => q j - x) * ((p m - x) / (q (S m) - x))).
    { change (Rprod (S m) (fun j => p j - x)) with (Rprod m (fun j => p j - x) * (p m - x)). change (Rprod (S (S m)) (fun j => q j - x)) with (Rprod (S m) (fun j => q j - x) * (q (S m) - x)). field. split; [apply X0; lia|exact D0]. }
    rewrite Q1 by (intros i Hi; apply Hx; lia). rewrite <- Rsum_scal.
    assert (PP : forall i, (i <= m)%nat -> part (S m) i = part m i * ((p m - q i) / (q (S m) - q i))).
    { intros i Hi. unfold part. change (Rprod (S m) (fun j => p j - q i)) with (Rprod m (fun j => p j - q i) * (p m - q i)).
      assert (ES : Rprod (S (S m)) (fun j => if (j =? i)%nat then 1 else q j - q i) = Rprod (S m) (fun j => if (j =? i)%nat then 1 else q j - q i) * (q (S m) - q i)). { set (f := fun j => if (j =? i)%nat then 1 else q j - q i). change (Rprod (S (S m)) f) with (Rprod (S m) f * f (S m)). f_equal. unfold f. destruct (Nat.eqb_spec (S m) i); [lia|reflexivity]. }
      rewrite ES. field. split; [apply Y0; exact Hi|]. apply Rprod_ne. intros j Hj. destruct (Nat.eqb_spec j i); [lra|]. intros Z. apply (Hq j i); [lia|lia|auto|lra]. }
    rewrite (Rsum_ext _ _ (fun i => part (S m) i / (q i - x) + part m i / (q i - q (S m)) * ((p m - q (S m)) / (q (S m) - x)))).
    2: { intros i Hi. rewrite PP by lia. pose proof (X0 i ltac:(lia)). pose proof (X0 (S m) ltac:(lia)). pose proof (Y0 i ltac:(lia)). field. repeat split; auto. intros Z. apply H1. lra. }
    rewrite Rsum_add, Rsum_scal. rewrite <- Q1 by (intros i Hi; apply Hq; lia). change (Rsum (S (S m)) (fun i => part (S m) i / (q i - x))) with (Rsum (S m) (fun i => part (S m) i / (q i - x)) + part (S m) (S m) / (q (S m) - x)). f_equal.
    unfold part. set (f := fun j => if (j =? S m)%nat then 1 else q j - q (S m)). change (Rprod (S (S m)) f) with (Rprod (S m) f * f (S m)). assert (F1 : f (S m) = 1) by (unfold f; rewrite Nat.eqb_refl; reflexivity). rewrite F1.
    assert (F2 : Rprod (S m) f = Rprod (S m) (fun j => q j - q (S m))) by (apply Rprod_ext; intros j Hj; unfold f; destruct (Nat.eqb_spec j (S m)); [lia|reflexivity]). rewrite F2. change (Rprod (S m) (fun j => p j - q (S m))) with (Rprod m (fun j => p j - q (S m)) * (p m - q (S m))). field. split; [|apply X0; lia]. apply Rprod_ne. intros j Hj. intros Z. apply (Y0 j); [lia|lra].
Qed.
End Fractions.

Section Residues.
Local Open Scope R_scope.
Lemma fold_prod (f : nat -> R) i n r : fold_left (fun r j => if (j =? i)%nat then r else r * f j) (seq 0 n) r = r * Rprod n (fun j => if (j =? i)%nat then 1 else f j).
Proof. induction n as [|n IH]; [cbn; ring|]. rewrite seq_S, fold_left_app, IH. cbn [fold_left Rprod plus]. destruct (n =? i)%nat; ring. Qed.
Lemma residue_part n P Q i : (i < n)%nat -> (forall a b, (a < n)%nat -> (b < n)%nat -> a <> b -> nth a Q 0 <> nth b Q 0) ->
  residue n P Q i = 0.5 * INR n * (2 * INR n + 3) * part (fun j => nth j P 0) (fun j => nth j Q 0) (n - 1) i.
Proof.
  intros Hi HQ. unfold residue. rewrite (fold_prod (fun j => (nth j P 0 - nth i Q 0) / (nth j Q 0 - nth i Q 0))). destruct n as [|m]; [lia|]. replace (S m - 1)%nat with m by lia. unfold part. cbn [Rprod].
  set (p := fun j => nth j P 0 - nth i Q 0). set (q := fun j => nth j Q 0 - nth i Q 0). set (c := 0.5 * INR (S m) * (2 * INR (S m) + 3)).
  assert (Q0 : forall j, (j <= m)%nat -> j <> i -> q j <> 0) by (intros j Hj N Z; apply (HQ j i); [lia|lia|auto|unfold q in Z; lra]).
  assert (E : Rprod m (fun j => if (j =? i)%nat then 1 else (nth j P 0 - nth i Q 0) / (nth j Q 0 - nth i Q 0)) = Rprod m (fun j => if (j =? i)%nat then 1 else p j) / Rprod m (fun j => if (j =? i)%nat then 1 else q j)).
  { rewrite <- Rprod_div; [apply Rprod_ext; intros j _; destruct (j =? i)%nat; [field|reflexivity]|]. intros j Hj. destruct (Nat.eqb_spec j i); [lra|apply Q0; [lia|auto]]. }
  rewrite E. assert (N0 : Rprod m (fun j => if (j =? i)%nat then 1 else q j) <> 0) by (apply Rprod_ne; intros j Hj; destruct (Nat.eqb_spec j i); [lra|apply Q0; [lia|auto]]).
  change (nth i P 0 - nth i Q 0) with (p i). change (nth m Q 0 - nth i Q 0) with (q m). change (fun j => if (j =? i)%nat then 1 else nth j Q 0 - nth i Q 0) with (fun j => if (j =? i)%nat then 1 else q j).
  destruct (Nat.ltb_spec i m) as [L|L].
  - destruct (Nat.eqb_spec m i); [lia|]. rewrite <- (Rprod_but m i p L). field. split; [apply Q0; lia|exact N0].
  - assert (i = m) as -> by lia. rewrite Nat.eqb_refl. rewrite (Rprod_ext m (fun j => if (j =? m)%nat then 1 else p j) p) by (intros j Hj; destruct (Nat.eqb_spec j m); [lia|reflexivity]). field. exact N0.
Qed.
Lemma pade_fractions n P Q x : (1 <= n)%nat -> (forall a b, (a < n)%nat -> (b < n)%nat -> a <> b -> nth a Q 0 <> nth b Q 0) -> (forall a, (a < n)%nat -> x <> nth a Q 0) ->
  Rsum n (fun i => residue n P Q i / (nth i Q 0 - x)) = 0.5 * INR n * (2 * INR n + 3) * Rprod (n - 1) (fun j => nth j P 0 - x) / Rprod n (fun j => nth j Q 0 - x).
Proof.
  intros Hn HQ Hx. assert (E : n = S (n - 1)) by lia. unfold Rdiv at 2. rewrite Rmult_assoc. fold (Rdiv (Rprod (n - 1) (fun j => nth j P 0 - x)) (Rprod n (fun j => nth j Q 0 - x))). rewrite E at 5. rewrite (fractions (fun j => nth j P 0) (fun j => nth j Q 0) (n - 1) x); [|intros; apply HQ; lia|intros; apply Hx; lia].
  rewrite <- E. rewrite Rmult_comm, <- Rsum_scal. apply Rsum_ext. intros i Hi. rewrite residue_part by auto. unfold Rdiv. ring.
Qed.
End Residues.

(** ** Damped oscillations *)
Local Open Scope star_scope.
Add Ring Crx : (r_theory C_star).
Lemma Cnorm2_mul (x y : C_star) : Cnorm2 (x * y) = (Cnorm2 x * Cnorm2 y)%R.
Proof. unfold Cnorm2. cbn. ring. Qed.
Lemma Cnorm2_exp x : Cnorm2 (Cexp x) = exp (2 * fst x).
Proof. unfold Cnorm2, Cexp. cbn [fst snd]. replace (2 * fst x)%R with (fst x + fst x)%R by ring. rewrite exp_plus. pose proof (sin2_cos2 (snd x)) as H. unfold Rsqr in H. transitivity (exp (fst x) * exp (fst x) * (sin (snd x) * sin (snd x) + cos (snd x) * cos (snd x)))%R; [ring|]. rewrite H. ring. Qed.
Lemma exp_ne (x : C_star) : (fst x <> 0)%R -> Cnorm2 (Cexp x) <> Cnorm2 (Cexp (- x)).
Proof. intros H E. rewrite !Cnorm2_exp in E. apply exp_inv in E. cbn in E. lra. Qed.
Lemma sinh_ne (x : C_star) : (fst x <> 0)%R -> Cexp x - Cexp (- x) <> 0 /\ Cexp x + Cexp (- x) <> 0.
Proof.
  intros H. split; intros E; apply (exp_ne x H).
  - assert (Z : Cexp x = Cexp (- x)) by (transitivity (Cexp x - Cexp (- x) + Cexp (- x)); [ring|rewrite E; ring]). rewrite Z at 1. reflexivity.
  - assert (Z : Cexp x = - (1) * Cexp (- x)) by (transitivity (Cexp x + Cexp (- x) - Cexp (- x)); [ring|rewrite E; ring]). rewrite Z at 1. rewrite Cnorm2_mul. unfold Cnorm2 at 1. cbn. ring.
Qed.
Lemma Cinv_unique (x y : C_star) : x * y = 1 -> Cinv x = y.
Proof.
  intros H. assert (N : x <> 0) by (intros ->; apply C_nontrivial; rewrite <- H; ring). transitivity (Cinv x * (x * y)); [rewrite H; ring|]. transitivity (x * Cinv x * y); [ring|]. rewrite Cinv_r by exact N. ring.
Qed.
Lemma coth_ratio (x : C_star) : (fst x <> 0)%R -> Ccoth x * (Cexp x - Cexp (- x)) = Cexp x + Cexp (- x).
Proof.
  intros H. destruct (sinh_ne x H) as (S0 & C0). unfold Ccoth, Ctanh. set (s := Cexp x - Cexp (- x)) in *. set (c := Cexp x + Cexp (- x)) in *.
  assert (E : Cinv (s * Cinv c) = c * Cinv s). { apply Cinv_unique. transitivity (s * Cinv s * (c * Cinv c)); [ring|]. rewrite !Cinv_r by auto. ring. }
  rewrite E. transitivity (c * (s * Cinv s)); [ring|]. rewrite Cinv_r by auto. ring.
Qed.
Lemma exp_opp (x : C_star) : Cexp x * Cexp (- x) = 1.
Proof. rewrite <- Cexp_add. replace (x + - x) with (0 : C_star) by ring. apply Cexp_0. Qed.
Lemma C_cancel (a x y : C_star) : a <> 0 -> x * a = y * a -> x = y.
Proof. intros N H. assert (Z : x - y = 0) by (apply (C_int a); [transitivity (x * a - y * a); [ring|rewrite H; ring]|exact N]). transitivity (x - y + y); [ring|rewrite Z; ring]. Qed.
Lemma coth_plus (x : C_star) : (fst x <> 0)%R -> (Ccoth x + 1) * (1 - Cexp (- (x + x))) = 1 + 1 /\ (Ccoth x - 1) * (Cexp (x + x) - 1) = 1 + 1.
Proof.
  intros H. destruct (sinh_ne x H) as (S0 & _). pose proof (coth_ratio x H) as E. pose proof (exp_opp x) as O. replace (- (x + x)) with (- x + - x) by ring. rewrite !Cexp_add. set (e := Cexp x) in *. set (f := Cexp (- x)) in *. set (k := Ccoth x) in *.
  split; apply (C_cancel (e - f) _ _ S0).
  - transitivity ((k * (e - f) + (e - f)) * (1 - f * f)); [ring|]. rewrite E. transitivity ((1 + 1) * (e - e * f * f)); [ring|]. rewrite O. ring.
  - transitivity ((k * (e - f) - (e - f)) * (e * e - 1)); [ring|]. rewrite E. transitivity ((1 + 1) * (e * f * e - f)); [ring|]. rewrite O. ring.
Qed.
Lemma Cinv_conj (x : C_star) : Cinv (rconj x) = rconj (Cinv x).
Proof. unfold Cinv, Cnorm2. apply Ceq; cbn; unfold Rdiv; replace (- snd x * - snd x)%R with (snd x * snd x)%R by ring; ring. Qed.
Lemma coth_conj (x : C_star) : Ccoth (rconj x) = rconj (Ccoth x).
Proof. unfold Ccoth, Ctanh. rewrite <- Cinv_conj, rconj_mul, <- Cinv_conj, rconj_sub, rconj_add. rewrite <- !Cexp_conj. rewrite rconj_opp. reflexivity. Qed.
