(** The hierarchy with modes on grids: change of the representation of a mode, trace, commutator. *)
From Coq Require Import List Arith Bool Lia Ring.
From Verif Require Import Py Alg ListX NdArray_Model NdArray_Proof Mode_Proof Contract_Proof Heom_Spec Heom_Proof HeomGrid_Spec.
Import ListNotations.
Local Open Scope nat_scope.

Section Change.
Variable K : StarRing.
Add Ring Krc : (r_theory K).

(** ** One axis *)
Lemma axis_comm p q (O E : nat -> nat -> K) j k rho n a b : j <> k ->
  on_axis p O j (on_axis q E k rho) n a b = on_axis q E k (on_axis p O j rho) n a b.
Proof.
  intros N. unfold on_axis, occ.
  rewrite (sumn_ext K p _ (fun x => sumn q (fun y => O (nth j n 0%nat) x * (E (nth k n 0%nat) y * rho (upd k y (upd j x n)) a b)))%S)
    by (intros x Hx; rewrite nth_upd_neq by auto; symmetry; apply sumn_scal_l).
  rewrite sumn_swap. apply sumn_ext. intros y Hy. rewrite nth_upd_neq by auto. rewrite <- sumn_scal_l. apply sumn_ext. intros x Hx.
  rewrite (upd_comm k j) by auto. ring.
Qed.
Lemma axis_same p q (O O' E : nat -> nat -> K) k rho n a b : k < length n ->
  (forall y, y < q -> sumn p (fun z => O' (nth k n 0%nat) z * E z y)%S = sumn q (fun z => E (nth k n 0%nat) z * O z y)%S) ->
  on_axis p O' k (on_axis q E k rho) n a b = on_axis q E k (on_axis q O k rho) n a b.
Proof.
  intros L H. unfold on_axis, occ.
  rewrite (sumn_ext K p _ (fun x => sumn q (fun y => O' (nth k n 0%nat) x * E x y * rho (upd k y n) a b))%S).
  2: { intros x Hx. rewrite nth_upd_eq by auto. rewrite <- sumn_scal_l. apply sumn_ext. intros y Hy. rewrite upd_upd. ring. }
  rewrite sumn_swap.
  rewrite (sumn_ext K q _ (fun y => sumn q (fun z => E (nth k n 0%nat) z * O z y * rho (upd k y n) a b)%S)).
  2: { intros y Hy. rewrite !sumn_scal_r. rewrite H by auto. reflexivity. }
  rewrite sumn_swap. apply sumn_ext. intros z Hz. rewrite nth_upd_eq by auto. rewrite <- sumn_scal_l. apply sumn_ext. intros y Hy. rewrite upd_upd. ring.
Qed.
Lemma lmul_axis d A q (E : nat -> nat -> K) k rho n i j : lmul d A (on_axis q E k rho n) i j = on_axis q E k (fun n => lmul d A (rho n)) n i j.
Proof.
  unfold lmul, on_axis. rewrite (sumn_ext K d _ (fun a => sumn q (fun x => A i a * (E (occ n k) x * rho (upd k x n) a j)))%S) by (intros; symmetry; apply sumn_scal_l).
  rewrite sumn_swap. apply sumn_ext. intros x Hx. rewrite <- sumn_scal_l. apply sumn_ext. intros. ring.
Qed.
Lemma rmult_axis d A q (E : nat -> nat -> K) k rho n i j : rmult d (on_axis q E k rho n) A i j = on_axis q E k (fun n => rmult d (rho n) A) n i j.
Proof.
  unfold rmult, on_axis. rewrite (sumn_ext K d _ (fun a => sumn q (fun x => E (occ n k) x * rho (upd k x n) i a * A a j))%S) by (intros; symmetry; apply sumn_scal_r).
  rewrite sumn_swap. apply sumn_ext. intros x Hx. rewrite <- sumn_scal_l. apply sumn_ext. intros. ring.
Qed.
Lemma axis_lin q (E : nat -> nat -> K) k (f g : ext K) (s t : K) n i j : on_axis q E k (fun n i j => s * f n i j + t * g n i j)%S n i j = (s * on_axis q E k f n i j + t * on_axis q E k g n i j)%S.
Proof. unfold on_axis. rewrite <- !sumn_scal_l, <- sumn_add. apply sumn_ext. intros. ring. Qed.
Lemma axis_ext q (E : nat -> nat -> K) k f g n i j : (forall x, x < q -> f (upd k x n) i j = g (upd k x n) i j) -> on_axis q E k f n i j = on_axis q E k g n i j.
Proof. intros H. unfold on_axis. apply sumn_ext. intros. rewrite H by auto. reflexivity. Qed.
Lemma axis_sumn q (E : nat -> nat -> K) k r (f : nat -> ext K) n i j : on_axis q E k (fun n i j => sumn r (fun l => f l n i j)) n i j = sumn r (fun l => on_axis q E k (f l) n i j).
Proof.
  unfold on_axis. rewrite (sumn_ext K q _ (fun x => sumn r (fun l => E (occ n k) x * f l (upd k x n) i j))%S) by (intros; symmetry; apply sumn_scal_l). apply sumn_swap.
Qed.
Lemma axis_add q (E : nat -> nat -> K) k (f g : ext K) n i j : on_axis q E k (fun n i j => f n i j + g n i j)%S n i j = (on_axis q E k f n i j + on_axis q E k g n i j)%S.
Proof. unfold on_axis. rewrite <- sumn_add. apply sumn_ext. intros. ring. Qed.
Lemma axis_scal q (E : nat -> nat -> K) k (s : K) (f : ext K) n i j : on_axis q E k (fun n i j => s * f n i j)%S n i j = (s * on_axis q E k f n i j)%S.
Proof. unfold on_axis. rewrite <- sumn_scal_l. apply sumn_ext. intros. ring. Qed.
Lemma lmul_ext' d A f g i j : (forall a, a < d -> f a j = g a j :> K) -> lmul d A f i j = lmul d A g i j.
Proof. intros H. unfold lmul. apply sumn_ext. intros. rewrite H by auto. reflexivity. Qed.
Lemma rmult_ext' d A f g i j : (forall a, a < d -> f i a = g i a :> K) -> rmult d f A i j = rmult d g A i j.
Proof. intros H. unfold rmult. apply sumn_ext. intros. rewrite H by auto. reflexivity. Qed.

(** ** The right hand side *)
Variables (im : K) (d : nat) (Hl Hr Xl Xr : nat -> nat -> K) (gamma c c' f f' : nat -> K).
Notation rhs dims ops := (ladder_rhs im d dims Hl Hr Xl Xr ops gamma c c' f f').

Lemma change_axis dims p' k (ops ops' : nat -> ladder K) E rho n i j :
  k < length dims -> in_range n (upd k p' dims) -> i < d -> j < d ->
  (forall l, l < length dims -> l <> k -> ops' l = ops l) -> intertwines (nth k dims 0%nat) p' E (ops k) (ops' k) ->
  rhs (upd k p' dims) ops' (on_axis (nth k dims 0%nat) E k rho) n i j = on_axis (nth k dims 0%nat) E k (rhs dims ops rho) n i j.
Proof.
  intros Hk Hn Hi Hj Hops HE. set (p := nth k dims 0%nat) in *.
  assert (Ld : length (upd k p' dims) = length dims) by apply length_upd.
  assert (Ln : length n = length dims) by (rewrite <- Ld; apply in_range_len; auto).
  assert (Bk : nth k n 0 < p'). { pose proof (in_range_nth k _ _ Hn) as B. rewrite nth_upd_eq in B by auto. apply B. rewrite Ld. exact Hk. }
  assert (X : forall l (sel : ladder K -> nat -> nat -> K), l < length dims -> (forall y, y < p -> sumn p' (fun z => sel (ops' k) (nth k n 0%nat) z * E z y)%S = sumn p (fun z => E (nth k n 0%nat) z * sel (ops k) z y)%S) ->
    forall a b, on_axis (nth l (upd k p' dims) 0) (sel (ops' l)) l (on_axis p E k rho) n a b = on_axis p E k (on_axis (nth l dims 0%nat) (sel (ops l)) l rho) n a b).
  { intros l sel Hl' HS a b. destruct (Nat.eq_dec l k) as [->|N].
    - rewrite nth_upd_eq by auto. fold p. apply axis_same; [lia|exact HS].
    - rewrite nth_upd_neq by auto. rewrite Hops by auto. apply axis_comm; auto. }
  unfold ladder_rhs at 1. rewrite Ld.
  transitivity (- im * (on_axis p E k (fun n => lmul d Hl (rho n)) n i j - on_axis p E k (fun n => rmult d (rho n) Hr) n i j) +
    sumn (length dims) (fun l => on_axis p E k (fun n i j =>
      let up := on_axis (nth l dims 0%nat) (l_up (ops l)) l rho in
      let down := on_axis (nth l dims 0%nat) (l_down (ops l)) l rho in
      gamma l * on_axis (nth l dims 0%nat) (l_number (ops l)) l rho n i j
      - im * (lmul d Xl (fun a b => c l * f' l * up n a b + f l * down n a b) i j
              - rmult d (fun a b => c' l * f' l * up n a b + f l * down n a b) Xr i j)) n i j))%S.
  - rewrite lmul_axis, rmult_axis. f_equal. apply sumn_ext. intros l Hl'.
    rewrite (X l l_number) by (auto; intros y Hy; apply HE; auto).
    rewrite (lmul_ext' d Xl _ (fun a b => on_axis p E k (fun n a b => c l * f' l * on_axis (nth l dims 0%nat) (l_up (ops l)) l rho n a b + f l * on_axis (nth l dims 0%nat) (l_down (ops l)) l rho n a b)%S n a b)).
    2: { intros a Ha. cbv beta. rewrite (X l l_up), (X l l_down) by (auto; intros y Hy; apply HE; auto). symmetry. apply axis_lin. }
    rewrite (rmult_ext' d Xr _ (fun a b => on_axis p E k (fun n a b => c' l * f' l * on_axis (nth l dims 0%nat) (l_up (ops l)) l rho n a b + f l * on_axis (nth l dims 0%nat) (l_down (ops l)) l rho n a b)%S n a b)).
    2: { intros a Ha. cbv beta. rewrite (X l l_up), (X l l_down) by (auto; intros y Hy; apply HE; auto). symmetry. apply axis_lin. }
    set (F1 := fun n a b => (c l * f' l * _ + _)%S). set (F2 := fun n a b => (c' l * f' l * _ + _)%S).
    change (fun a b => on_axis p E k F1 n a b) with (on_axis p E k F1 n). change (fun a b => on_axis p E k F2 n a b) with (on_axis p E k F2 n).
    rewrite lmul_axis, rmult_axis. set (A := on_axis (nth l dims 0%nat) (l_number (ops l)) l rho). symmetry.
    rewrite (axis_ext p E k _ (fun n i j => gamma l * A n i j + - im * (lmul d Xl (F1 n) i j + - r1 * rmult d (F2 n) Xr i j))%S).
    2: { intros x Hx. cbv beta zeta. unfold F1, F2, A. match goal with |- (?a - ?b * (?c1 - ?c2))%S = _ => transitivity (a + - b * (c1 + - r1 * c2))%S; [ring|reflexivity] end. }
    rewrite (axis_add p E k (fun n i j => gamma l * A n i j)%S (fun n i j => - im * (lmul d Xl (F1 n) i j + - r1 * rmult d (F2 n) Xr i j))%S).
    rewrite (axis_scal p E k (gamma l) A), (axis_scal p E k (- im)%S (fun n i j => lmul d Xl (F1 n) i j + - r1 * rmult d (F2 n) Xr i j)%S).
    rewrite (axis_add p E k (fun n => lmul d Xl (F1 n)) (fun n i j => - r1 * rmult d (F2 n) Xr i j)%S), (axis_scal p E k (- r1)%S (fun n => rmult d (F2 n) Xr)). ring.
  - set (M := fun l (n : list nat) i j => (gamma l * on_axis (nth l dims 0%nat) (l_number (ops l)) l rho n i j
      - im * (lmul d Xl (fun a b => c l * f' l * on_axis (nth l dims 0%nat) (l_up (ops l)) l rho n a b + f l * on_axis (nth l dims 0%nat) (l_down (ops l)) l rho n a b) i j
              - rmult d (fun a b => c' l * f' l * on_axis (nth l dims 0%nat) (l_up (ops l)) l rho n a b + f l * on_axis (nth l dims 0%nat) (l_down (ops l)) l rho n a b) Xr i j))%S).
    symmetry. rewrite (axis_ext p E k _ (fun n i j => - im * lmul d Hl (rho n) i j + (im * rmult d (rho n) Hr i j + sumn (length dims) (fun l => M l n i j)))%S).
    2: { intros x Hx. unfold ladder_rhs. cbv beta. match goal with |- (?a * (?b - ?c0) + ?s)%S = _ => transitivity (a * b + (im * c0 + s))%S; [ring|reflexivity] end. }
    rewrite (axis_add p E k (fun n i j => - im * lmul d Hl (rho n) i j)%S (fun n i j => im * rmult d (rho n) Hr i j + sumn (length dims) (fun l => M l n i j))%S).
    rewrite (axis_add p E k (fun n i j => im * rmult d (rho n) Hr i j)%S (fun n i j => sumn (length dims) (fun l => M l n i j))).
    rewrite (axis_scal p E k (- im)%S (fun n => lmul d Hl (rho n))), (axis_scal p E k im (fun n => rmult d (rho n) Hr)), (axis_sumn p E k (length dims) M).
    match goal with |- (_ + (_ + ?s))%S = (_ + ?s')%S => change s' with s end. ring.
Qed.

End Change.

(** ** The weighted trace *)
Section Weight.
Variable K : StarRing.
Add Ring Krw : (r_theory K).
Lemma swap_axis i (ns : list nat) (F : list nat -> list nat -> K) : i < length ns ->
  sumL (indices ns) (fun n => sumn (nth i ns 0%nat) (fun k => F n (upd i k n))) = sumL (indices ns) (fun n => sumn (nth i ns 0%nat) (fun k => F (upd i k n) n)).
Proof.
  intros Hi. rewrite !(sum_indices_del K i ns) by exact Hi. set (D := del i ns). set (q := nth i ns 0%nat).
  assert (U : forall r m k, In r (indices D) -> upd i k (ins i m r) = ins i k r).
  { intros r m k Hr. apply in_indices, in_range_len in Hr. unfold D in Hr. rewrite length_del in Hr by exact Hi. rewrite upd_eq by (rewrite length_ins; lia). rewrite del_ins by lia. reflexivity. }
  transitivity (sumn q (fun m => sumn q (fun k => sumL (indices D) (fun r => F (ins i m r) (ins i k r))))).
  - apply sumn_ext. intros m Hm. unfold sumn. rewrite sumL_swap. apply sumL_ext. intros k. apply sumL_ext_in. intros r Hr. rewrite U by exact Hr. reflexivity.
  - rewrite sumn_swap. apply sumn_ext. intros m Hm. unfold sumn. rewrite sumL_swap. apply sumL_ext_in. intros r Hr. apply sumL_ext. intros k. rewrite U by exact Hr. reflexivity.
Qed.

Lemma weighted dims (w : list nat -> K) (O : nat -> nat -> K) k rho i j : k < length dims ->
  (forall n, in_range n dims -> sumn (nth k dims 0%nat) (fun x => w (upd k x n) * O x (nth k n 0%nat))%S = r0) ->
  sumL (indices dims) (fun n => w n * on_axis (nth k dims 0%nat) O k rho n i j)%S = r0.
Proof.
  intros Hk H.
  rewrite (sumL_ext_in K (indices dims) _ (fun n => sumn (nth k dims 0%nat) (fun x => (fun n n' => w n * (O (nth k n 0%nat) (nth k n' 0%nat) * rho n' i j)) n (upd k x n)))%S).
  2: { intros n Hn. apply in_indices in Hn. pose proof (in_range_len _ _ Hn). unfold on_axis, occ. rewrite <- sumn_scal_l. apply sumn_ext. intros x Hx. cbv beta. rewrite nth_upd_eq by lia. reflexivity. }
  rewrite (swap_axis k dims (fun n n' => w n * (O (nth k n 0%nat) (nth k n' 0%nat) * rho n' i j))%S) by auto.
  etransitivity; [apply (sumL_ext_in K _ _ (fun _ => r0))|].
  - intros n Hn. apply in_indices in Hn. pose proof (in_range_len _ _ Hn). cbv beta.
    rewrite (sumn_ext K _ _ (fun x => w (upd k x n) * O x (nth k n 0%nat) * rho n i j)%S) by (intros x Hx; rewrite nth_upd_eq by lia; ring).
    rewrite sumn_scal_r, H by auto. ring.
  - apply sumL_zero.
Qed.

Definition tau (d : nat) (X rho : nat -> nat -> K) : K := sumn d (fun i => lmul d X rho i i).
Lemma tau_r d X (rho : nat -> nat -> K) : sumn d (fun i => rmult d rho X i i) = tau d X rho.
Proof. unfold tau, lmul, rmult. rewrite sumn_swap. apply sumn_ext. intros i Hi. apply sumn_ext. intros. ring. Qed.
Lemma tau_lin d X (s t : K) f g : tau d X (fun a b => s * f a b + t * g a b)%S = (s * tau d X f + t * tau d X g)%S.
Proof.
  unfold tau, lmul. rewrite <- !sumn_scal_l, <- sumn_add. apply sumn_ext. intros i Hi. rewrite <- !sumn_scal_l, <- sumn_add. apply sumn_ext. intros. ring.
Qed.
Lemma weighted_tau d X dims (w : list nat -> K) (g : ext K) : (forall i j, sumL (indices dims) (fun n => w n * g n i j)%S = r0) -> sumL (indices dims) (fun n => w n * tau d X (g n))%S = r0.
Proof.
  intros H. unfold tau, lmul.
  rewrite (sumL_ext K _ _ (fun n => sumL (seq 0 d) (fun i => sumL (seq 0 d) (fun a => X i a * (w n * g n a i))))%S).
  2: { intros n. unfold sumn. rewrite <- sumL_scal_l. apply sumL_ext. intros i. rewrite <- sumL_scal_l. apply sumL_ext. intros a. ring. }
  rewrite sumL_swap. apply sumL_zero_in. intros i _. rewrite sumL_swap. apply sumL_zero_in. intros a _. rewrite sumL_scal_l, H. ring.
Qed.
Lemma weighted_trace im d dims (H X : nat -> nat -> K) ops gamma c c' f f' rho (w : list nat -> K) :
  (forall k n, k < length dims -> in_range n dims -> sumn (nth k dims 0%nat) (fun x => w (upd k x n) * l_up (ops k) x (nth k n 0%nat))%S = r0) ->
  (forall k n, k < length dims -> in_range n dims -> sumn (nth k dims 0%nat) (fun x => w (upd k x n) * l_number (ops k) x (nth k n 0%nat))%S = r0) ->
  sumL (indices dims) (fun n => w n * sumn d (fun i => ladder_rhs im d dims H H X X ops gamma c c' f f' rho n i i))%S = r0.
Proof.
  intros HU HN.
  set (num k := on_axis (nth k dims 0%nat) (l_number (ops k)) k rho). set (up k := on_axis (nth k dims 0%nat) (l_up (ops k)) k rho). set (down k := on_axis (nth k dims 0%nat) (l_down (ops k)) k rho).
  assert (E : forall n, sumn d (fun i => ladder_rhs im d dims H H X X ops gamma c c' f f' rho n i i) =
    sumn (length dims) (fun k => gamma k * sumn d (fun i => num k n i i) + - im * ((c k - c' k) * f' k) * tau d X (up k n))%S).
  { intros n. unfold ladder_rhs. fold num up down. rewrite sumn_add.
    rewrite (sumn_ext K d _ (fun i => - im * lmul d H (rho n) i i + im * rmult d (rho n) H i i)%S) by (intros; ring).
    match goal with |- (?a + ?s)%S = _ => assert (Z : a = r0); [|rewrite Z; clear Z; transitivity s; [ring|]] end.
    { rewrite sumn_add, !sumn_scal_l, (tau_r d H (rho n)). unfold tau. ring. }
    rewrite sumn_swap.
    apply sumn_ext. intros k Hk. cbv zeta.
    change (on_axis (nth k dims 0%nat) (l_number (ops k)) k rho) with (num k). change (on_axis (nth k dims 0%nat) (l_up (ops k)) k rho) with (up k). change (on_axis (nth k dims 0%nat) (l_down (ops k)) k rho) with (down k).
    set (F := fun a b => (c k * f' k * up k n a b + f k * down k n a b)%S). set (G := fun a b => (c' k * f' k * up k n a b + f k * down k n a b)%S).
    rewrite (sumn_ext K d _ (fun i => gamma k * num k n i i + (- im * lmul d X F i i + im * rmult d G X i i))%S) by (intros; ring).
    rewrite !sumn_add, !sumn_scal_l, (tau_r d X G). fold (tau d X F). unfold F, G. rewrite !tau_lin. ring. }
  rewrite (sumL_ext K _ _ (fun n => sumL (seq 0 (length dims)) (fun k => w n * (gamma k * sumn d (fun i => num k n i i) + - im * ((c k - c' k) * f' k) * tau d X (up k n)))%S)) by (intros n; rewrite E; unfold sumn; symmetry; apply sumL_scal_l).
  rewrite sumL_swap. apply sumL_zero_in. intros k Hk. apply in_seq in Hk.
  rewrite (sumL_ext K _ _ (fun n => gamma k * sumL (seq 0 d) (fun i => w n * num k n i i) + - im * ((c k - c' k) * f' k) * (w n * tau d X (up k n)))%S) by (intros n; rewrite sumL_scal_l; unfold sumn; ring).
  rewrite sumL_add, !sumL_scal_l. rewrite sumL_swap.
  rewrite (sumL_zero_in K (seq 0 d)) by (intros i _; apply weighted; [lia|intros; apply HN; auto; lia]).
  rewrite weighted_tau by (intros; apply weighted; [lia|intros; apply HU; auto; lia]). ring.
Qed.
End Weight.
