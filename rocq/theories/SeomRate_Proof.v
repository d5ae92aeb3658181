(** The part of the equations of seom.py that changes the norm. *)
From Coq Require Import List Arith Bool Lia Ring.
From Verif Require Import Py Alg ListX NdArray_Model NdArray_Proof Heom_Spec Heom_Proof HeomThm_Proof Seom_Spec.
Import ListNotations.
Local Open Scope nat_scope.

Section Rate.
Variable K : StarRing.
Add Ring Kr : (r_theory K).
Local Open Scope star_scope.

Lemma upd_cons k (y x : nat) n : upd (S k) y (x :: n) = x :: upd k y n.
Proof. unfold upd. cbn [length]. change (S k <? S (length n))%nat with (k <? length n)%nat. destruct (k <? length n)%nat; reflexivity. Qed.
Lemma more_cons k x n : more (S k) (x :: n) = x :: more k n.
Proof. apply upd_cons. Qed.
Lemma less_cons k x n : less (S k) (x :: n) = x :: less k n.
Proof. apply upd_cons. Qed.
Lemma sum_indices (x : nat) sh (G : list nat -> K) : sumL (indices (x :: sh)) G = sumn x (fun i => sumL (indices sh) (fun n => G (i :: n))).
Proof. cbn [indices]. unfold sumn. generalize (seq 0 x). intros l. induction l as [|i l IH]; [reflexivity|]. cbn [flat_map]. rewrite sumL_app, sumL_cons, IH, sumL_map. reflexivity. Qed.
Lemma shift_one d (H : nat -> K) : sumn d (fun x => if (S x <? d)%nat then H x else 0) = sumn d (fun x => if (0 <? x)%nat then H (pred x) else 0).
Proof.
  destruct d as [|e]; [reflexivity|]. rewrite sumn_S, sumn_S_l. replace (S e <? S e)%nat with false by (symmetry; apply Nat.ltb_irrefl). replace (0 <? 0)%nat with false by reflexivity.
  rewrite (sumn_ext K e (fun x => if (S x <? S e)%nat then H x else 0) (fun i => if (0 <? S i)%nat then H (pred (S i)) else 0)); [ring|].
  intros i Hi. replace (S i <? S e)%nat with true by (symmetry; apply Nat.ltb_lt; lia). reflexivity.
Qed.
Lemma shift_sum : forall dims k (F : list nat -> K), (k < length dims)%nat ->
  sumL (indices dims) (fun n => if inside (more k n) dims then F n else 0) = sumL (indices dims) (fun n => if (0 <? occ n k)%nat then F (less k n) else 0).
Proof.
  induction dims as [|d ds IH]; intros k F Hk; [cbn in Hk; lia|]. rewrite !sum_indices. destruct k as [|k].
  - rewrite (sumn_ext K d _ (fun x => if (S x <? d)%nat then sumL (indices ds) (fun n => F (x :: n)) else 0)).
    2:{ intros x Hx. destruct (S x <? d)%nat eqn:E.
        - apply sumL_ext_in. intros n Hn. change (inside (more 0 (x :: n)) (d :: ds)) with ((S x <? d)%nat && inside n ds). rewrite E. apply in_indices in Hn. apply inside_iff in Hn. rewrite Hn. reflexivity.
        - apply sumL_zero_in. intros n _. change (inside (more 0 (x :: n)) (d :: ds)) with ((S x <? d)%nat && inside n ds). rewrite E. reflexivity. }
    rewrite shift_one. apply sumn_ext. intros x Hx. destruct (0 <? x)%nat eqn:E.
    + apply sumL_ext. intros n. change (occ (x :: n) 0) with x. rewrite E. reflexivity.
    + symmetry. apply sumL_zero_in. intros n _. change (occ (x :: n) 0) with x. rewrite E. reflexivity.
  - apply sumn_ext. intros x Hx. assert (Hd : (x <? d)%nat = true) by (apply Nat.ltb_lt; auto).
    rewrite (sumL_ext K (indices ds) _ (fun n => if inside (more k n) ds then F (x :: n) else 0)).
    2:{ intros n. rewrite more_cons. change (inside (x :: more k n) (d :: ds)) with ((x <? d)%nat && inside (more k n) ds). rewrite Hd. reflexivity. }
    rewrite (IH k (fun n => F (x :: n))) by (cbn in Hk; lia). apply sumL_ext. intros n. rewrite less_cons. reflexivity.
Qed.

(** [sum conj(f) X g] over both indices. *)
Definition sand (d : nat) (X : nat -> nat -> K) (f g : nat -> nat -> K) : K :=
  sumn d (fun q => sumn d (fun p => rconj (f q p) * sumn d (fun a => X p a * g q a))).
Lemma sand_conj d X f g : (forall a b, (a < d)%nat -> (b < d)%nat -> rconj (X a b) = X b a) -> rconj (sand d X f g) = sand d X g f.
Proof.
  intros H. unfold sand. rewrite rconj_sumn. apply sumn_ext. intros q Hq. rewrite rconj_sumn.
  rewrite (sumn_ext K d _ (fun p => sumn d (fun a => rconj (g q a) * (X a p * f q p)))).
  2:{ intros p Hp. rewrite rconj_mul, rconj_invol, rconj_sumn, <- sumn_scal_l. apply sumn_ext. intros a Ha. rewrite rconj_mul, H by auto. ring. }
  rewrite sumn_swap. apply sumn_ext. intros a Ha. rewrite <- sumn_scal_l. reflexivity.
Qed.
Lemma sand_zero d X f g : (forall q a, (q < d)%nat -> (a < d)%nat -> g q a = 0) -> sand d X f g = 0.
Proof.
  intros H. unfold sand. apply sumn_zero. intros q Hq. apply sumn_zero. intros p Hp. rewrite (sumn_zero K d); [ring|]. intros a Ha. rewrite H by auto. ring.
Qed.

Variables (dims : list nat) (d : nat) (a : arr K) (sq : nat -> K) (H X : nat -> nat -> K) (gamma : nat -> K) (b : K).
Hypothesis S0 : sq O = 0.
Hypothesis Rs : forall n, rconj (sq n) = sq n.
Hypothesis HH : forall x y, (x < d)%nat -> (y < d)%nat -> rconj (H x y) = H y x.
Hypothesis HX : forall x y, (x < d)%nat -> (y < d)%nat -> rconj (X x y) = X y x.
Hypothesis Rg : forall k, (k < length dims)%nat -> rconj (gamma k) = gamma k.
Hypothesis Hb : rconj b = - b.
Notation T := (tiers dims a).

Lemma up_down k : (k < length dims)%nat ->
  rconj (sumL (indices dims) (fun n => sq (S (occ n k)) * sand d X (T n) (T (more k n)))) = sumL (indices dims) (fun n => sq (occ n k) * sand d X (T n) (T (less k n))).
Proof.
  intros Hk. rewrite rconj_sumL.
  rewrite (sumL_ext K (indices dims) _ (fun n => if inside (more k n) dims then rconj (sq (S (occ n k)) * sand d X (T n) (T (more k n))) else 0)).
  2:{ intros n. destruct (inside (more k n) dims) eqn:E; [reflexivity|]. rewrite (sand_zero d X (T n)); [replace (sq (S (occ n k)) * 0) with (0 : K) by ring; apply rconj_0|].
      intros q x _ _. unfold tiers. rewrite E. reflexivity. }
  rewrite (shift_sum dims k (fun n => rconj (sq (S (occ n k)) * sand d X (T n) (T (more k n))))) by auto.
  apply sumL_ext_in. intros n Hn. apply in_indices in Hn. assert (Ln : length n = length dims) by (clear -Hn; induction Hn; cbn; congruence).
  destruct (0 <? occ n k)%nat eqn:E; [|apply Nat.ltb_ge in E; replace (occ n k) with O by lia; rewrite S0; ring].
  apply Nat.ltb_lt in E. rewrite more_less by lia. rewrite occ_less by lia. replace (S (pred (occ n k))) with (occ n k) by lia.
  rewrite rconj_mul, Rs, sand_conj by auto. reflexivity.
Qed.
Lemma rconj_num n : rconj (num n : K) = num n.
Proof. induction n as [|n IH]; cbn [num]; [apply rconj_0|]. rewrite rconj_add, IH, rconj_1. reflexivity. Qed.

Lemma norm_rate :
  let v := overlap dims d T (wave_rhs b sq d (length dims) H X gamma (fun _ => 1) T) in
  v - rconj v = (b + b) * weight dims d gamma T.
Proof.
  intros v.
  assert (Ev : v = sumL (indices dims) (fun n => sand d H (T n) (T n)) + b * weight dims d gamma T
    + sumn (length dims) (fun k => sumL (indices dims) (fun n => sq (S (occ n k)) * sand d X (T n) (T (more k n))))
    + sumn (length dims) (fun k => sumL (indices dims) (fun n => sq (occ n k) * sand d X (T n) (T (less k n))))).
  { assert (SW : forall m (l : list (list nat)) (G : nat -> list nat -> K), sumn m (fun k => sumL l (fun n => G k n)) = sumL l (fun n => sumn m (fun k => G k n)))
      by (intros; unfold sumn; apply sumL_swap).
    unfold v, overlap, weight. rewrite (SW _ _ (fun k n => sq (S (occ n k)) * sand d X (T n) (T (more k n)))), (SW _ _ (fun k n => sq (occ n k) * sand d X (T n) (T (less k n)))).
    rewrite <- sumL_scal_l, <- !sumL_add. apply sumL_ext. intros n.
    set (N := sumn d (fun q => sumn d (fun p => rconj (T n q p) * T n q p))). set (G := sumn (length dims) (fun k => num (occ n k) * gamma k)).
    transitivity (sumn d (fun q => sumn d (fun p => rconj (T n q p) * sumn d (fun x => H p x * T n q x)))
      + b * G * N + sumn (length dims) (fun k => sq (S (occ n k)) * sand d X (T n) (T (more k n))) + sumn (length dims) (fun k => sq (occ n k) * sand d X (T n) (T (less k n)))); [|unfold sand at 3; ring].
    assert (P : forall (s : nat -> K) (g : nat -> nat -> nat -> K), sumn (length dims) (fun k => s k * sand d X (T n) (g k)) =
      sumn d (fun q => sumn d (fun p => rconj (T n q p) * sumn (length dims) (fun k => s k * sumn d (fun x => X p x * g k q x))))).
    { intros s g. rewrite (sumn_ext K d _ (fun q => sumn (length dims) (fun k => sumn d (fun p => s k * (rconj (T n q p) * sumn d (fun x => X p x * g k q x)))))).
      - rewrite sumn_swap. apply sumn_ext. intros k _. unfold sand. rewrite <- sumn_scal_l. apply sumn_ext. intros q _. rewrite <- sumn_scal_l. reflexivity.
      - intros q _. rewrite sumn_swap. apply sumn_ext. intros p _. rewrite <- sumn_scal_l. apply sumn_ext. intros k _. ring. }
    rewrite (P (fun k => sq (S (occ n k))) (fun k => T (more k n))), (P (fun k => sq (occ n k)) (fun k => T (less k n))).
    unfold N. rewrite <- sumn_scal_l, <- !sumn_add. apply sumn_ext. intros q _. rewrite <- sumn_scal_l, <- !sumn_add. apply sumn_ext. intros p _.
    unfold wave_rhs. fold G. rewrite (sumn_ext K (length dims) (fun k => 1 * sq (occ n k) * _) (fun k => sq (occ n k) * sumn d (fun x => X p x * T (less k n) q x))) by (intros; ring).
    ring. }
  assert (E1 : rconj (sumL (indices dims) (fun n => sand d H (T n) (T n))) = sumL (indices dims) (fun n => sand d H (T n) (T n))).
  { rewrite rconj_sumL. apply sumL_ext. intros n. apply sand_conj. auto. }
  assert (E2 : rconj (weight dims d gamma T) = weight dims d gamma T).
  { unfold weight. rewrite rconj_sumL. apply sumL_ext. intros n. rewrite rconj_mul, !rconj_sumn. f_equal.
    - apply sumn_ext. intros k Hk. rewrite rconj_mul, rconj_num, Rg by auto. reflexivity.
    - apply sumn_ext. intros q _. rewrite rconj_sumn. apply sumn_ext. intros p _. rewrite rconj_mul, rconj_invol. ring. }
  set (C := fun k => sumL (indices dims) (fun n => sq (S (occ n k)) * sand d X (T n) (T (more k n)))) in *.
  set (D := fun k => sumL (indices dims) (fun n => sq (occ n k) * sand d X (T n) (T (less k n)))) in *.
  assert (CD : forall k, (k < length dims)%nat -> rconj (C k) = D k) by (intros k Hk; apply up_down; auto).
  assert (E3 : rconj (sumn (length dims) C) = sumn (length dims) D) by (rewrite rconj_sumn; apply sumn_ext; auto).
  assert (E4 : rconj (sumn (length dims) D) = sumn (length dims) C) by (rewrite <- E3; apply rconj_invol).
  rewrite Ev. rewrite !rconj_add, rconj_mul, E1, E2, E3, E4, Hb. ring.
Qed.
End Rate.
