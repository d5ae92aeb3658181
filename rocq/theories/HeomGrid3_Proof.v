(** The hierarchy with modes on grids: dependence on the values in range, and the complex numbers. *)
From Coq Require Import List Arith Bool Lia Ring Reals Lra.
From Verif Require Import Py Alg Ord ListX Cplx NdArray_Model NdArray_Proof Mode_Proof Contract_Model Contract_Proof Dvr_Model Dvr_Proof Dvr2_Proof Heom_Model Heom_Spec Heom_Proof HeomGrid_Model HeomGrid_Spec HeomGrid_Proof HeomGrid2_Proof.
Import ListNotations.
Local Open Scope nat_scope.

Section Ext.
Variable K : StarRing.
Add Ring Krx : (r_theory K).
Lemma on_axis_ext dims d p k (O O' : nat -> nat -> K) rho rho' n i j : k < length dims -> p = nth k dims 0 -> in_range n dims -> i < d -> j < d ->
  (forall x y, x < p -> y < p -> O x y = O' x y) -> (forall n i j, in_range n dims -> i < d -> j < d -> rho n i j = rho' n i j) ->
  on_axis p O k rho n i j = on_axis p O' k rho' n i j.
Proof.
  intros Hk -> Hn Hi Hj HO HR. unfold on_axis. apply sumn_ext. intros x Hx.
  assert (B : occ n k < nth k dims 0) by (unfold occ; apply in_range_nth; auto; rewrite (in_range_len _ _ Hn); auto).
  rewrite HO by auto. f_equal. apply HR; auto. apply in_range_upd_same; auto.
Qed.
Lemma ladder_ext im d dims (Hl Hr Xl Xr : nat -> nat -> K) ops ops' gamma c c' f f' g g' rho rho' n i j : in_range n dims -> i < d -> j < d ->
  (forall k, k < length dims -> ops k = ops' k /\ f k = g k /\ f' k = g' k) ->
  (forall n i j, in_range n dims -> i < d -> j < d -> rho n i j = rho' n i j) ->
  ladder_rhs im d dims Hl Hr Xl Xr ops gamma c c' f f' rho n i j = ladder_rhs im d dims Hl Hr Xl Xr ops' gamma c c' g g' rho' n i j.
Proof.
  intros Hn Hi Hj HO HR. unfold ladder_rhs. f_equal.
  - f_equal. f_equal; unfold lmul, rmult; apply sumn_ext; intros x Hx; rewrite HR by auto; reflexivity.
  - apply sumn_ext. intros k Hk. destruct (HO k Hk) as (<- & <- & <-). cbv zeta.
    assert (A : forall (O : nat -> nat -> K) a b, a < d -> b < d -> on_axis (nth k dims 0) O k rho n a b = on_axis (nth k dims 0) O k rho' n a b) by (intros O a b Ha Hb; apply (on_axis_ext dims d); auto).
    rewrite (A (l_number (ops k))) by auto. f_equal. f_equal. f_equal; unfold lmul, rmult; apply sumn_ext; intros x Hx; rewrite (A (l_up (ops k))), (A (l_down (ops k))) by auto; reflexivity.
Qed.
Lemma ladder_sym im d dims (H H' X X' : nat -> nat -> K) ops gamma c c' f f' rho n i j : i < d -> j < d ->
  (forall a b, a < d -> b < d -> H a b = H' a b) -> (forall a b, a < d -> b < d -> X a b = X' a b) ->
  ladder_rhs im d dims H H' X X' ops gamma c c' f f' rho n i j = ladder_rhs im d dims H' H' X' X' ops gamma c c' f f' rho n i j.
Proof.
  intros Hi Hj EH EX. unfold ladder_rhs. f_equal.
  - f_equal. f_equal. unfold lmul. apply sumn_ext. intros x Hx. rewrite EH by auto. reflexivity.
  - apply sumn_ext. intros k Hk. cbv zeta. f_equal. f_equal. f_equal. unfold lmul. apply sumn_ext. intros x Hx. rewrite EX by auto. reflexivity.
Qed.
End Ext.

(** ** Complex numbers *)
Local Open Scope R_scope.
Lemma root_unique (z : C_star) r : 0 < r -> rmul z z = RtoC r -> 0 <= fst z -> z = RtoC (sqrt r).
Proof.
  intros Hr E Hz. destruct z as [x y]. cbn [fst] in Hz. unfold RtoC in E. cbn in E. unfold Cmul in E. cbn [fst snd] in E. injection E as E1 E2.
  assert (y = 0). { assert (Z : x * y = 0) by lra. apply Rmult_integral in Z. destruct Z as [-> | Z]; auto. exfalso. nra. }
  subst y. apply Ceq; cbn [fst snd RtoC]; auto. symmetry. apply sqrt_lem_1; lra.
Qed.
Lemma inverse_unique (x y z : C_star) : rmul x y = r1 -> rmul x z = r1 -> y = z.
Proof.
  intros A B. pose proof (r_theory C_star) as T. transitivity (rmul y (rmul x z)).
  - rewrite B. rewrite (Rmul_comm T), (Rmul_1_l T). reflexivity.
  - rewrite (Rmul_assoc T), (Rmul_comm T y x), A, (Rmul_1_l T). reflexivity.
Qed.
Lemma fk_inv (c c' : C_star) : 0 < fst c + fst c' -> rmul (fk_C c c') (ifk_C c c') = r1.
Proof.
  intros H. unfold fk_C, ifk_C. rewrite <- RtoC_mul. rewrite Rinv_r; [reflexivity|]. apply Rgt_not_eq. apply sqrt_lt_R0. lra.
Qed.
Lemma sine_ok a b n e : exists g, sine_grid a b n e = Ok g /\ (g_num g = n /\ is_matrix (g_q g) n n /\ is_matrix (g_dq g) n n /\ is_matrix (g_dq2 g) n n /\ g_eig g = e) /\
  (forall x y, (x < n)%nat -> (y < n)%nat -> (mat (g_q g) x y = if (x =? y)%nat then RtoC (nth x (grid_points a b n) 0) else r0) /\
     mat (g_dq g) x y = ropp (mat (g_dq g) y x) /\ mat (g_dq2 g) x y = mat (g_dq2 g) y x).
Proof.
  unfold sine_grid. destruct (dq_dvr a b n) as (M & _ & EM & MM & AM). destruct (dq2_square a b n) as (D & ED & (WD & SD & GD)).
  rewrite EM, ED. cbn [bind]. eexists. split; [reflexivity|]. cbn [g_q g_dq g_dq2 g_num g_eig].
  destruct (square_diag n (grid_points a b n : list R_star)) as (WQ & SQ & GQ); [unfold grid_points; now rewrite map_length, seq_length|].
  assert (T : forall A : arr R_star, wf A -> shape A = [n; n] -> is_matrix (toC A) n n /\ forall x y, (x < n)%nat -> (y < n)%nat -> mat (toC A) x y = RtoC (get A [x; y])).
  { intros A WA SA. split; [split; [unfold wf, toC; cbn [data shape]; rewrite map_length; exact WA|exact SA]|].
    intros x y Hx Hy. unfold mat, get, toC. cbn [data shape]. rewrite SA. apply (map_nth RtoC). }
  destruct (T _ WQ SQ) as (MQ & EQ). destruct (T _ (proj1 MM) (proj2 MM)) as (MM' & EM'). destruct (T _ WD SD) as (MD & ED').
  split.
  - split; [unfold grid_points; now rewrite map_length, seq_length|]. split; [exact MQ|]. split; [exact MM'|]. split; [exact MD|]. reflexivity.
  - intros x y Hx Hy. rewrite EQ, !EM', !ED' by auto. split; [|split].
    + rewrite GQ by auto. unfold delta. destruct (x =? y)%nat; [|apply Ceq; cbn; ring]. apply Ceq; cbn; ring.
    + rewrite AM by auto. apply RtoC_opp.
    + rewrite !GD by auto. f_equal. apply (sumn_ext R_star). intros k Hk. rewrite (u_sym n x k), (u_sym n k y). cbn. ring.
Qed.
