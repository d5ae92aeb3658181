(** Integrals, interpolation and propagators of the sine representation. *)
From Coq Require Import List Arith Bool Lia Reals Lra.
From Verif Require Import Py Alg Ord Cplx ListX NdArray_Model NdArray_Proof Dvr_Model Dvr_Spec Dvr_Proof Dvr2_Proof.
Import ListNotations.
Local Open Scope R_scope.

Notation rsum n f := (@sumn R_star n f : R).

(** ** The derivative between sine functions *)
Lemma d_scal c f x l : derivable_pt_lim f x l -> derivable_pt_lim (fun x => c * f x) x (c * l).
Proof. exact (derivable_pt_lim_scal f c x l). Qed.
Lemma d_lin k x0 x : derivable_pt_lim (fun x => k * (x - x0)) x k.
Proof.
  pose proof (d_scal k (fun x => x - x0) x (1 - 0) (derivable_pt_lim_minus id (fct_cte x0) x 1 0 (derivable_pt_lim_id x) (derivable_pt_lim_const x0 x))) as H.
  rewrite Rminus_0_r, Rmult_1_r in H. exact H.
Qed.
Lemma d_cos k x0 x : derivable_pt_lim (fun x => cos (k * (x - x0))) x (- k * sin (k * (x - x0))).
Proof.
  replace (- k * sin (k * (x - x0))) with (- sin (k * (x - x0)) * k) by ring.
  apply (derivable_pt_lim_comp (fun x => k * (x - x0)) cos); [apply d_lin|apply derivable_pt_lim_cos].
Qed.
Lemma d_sin k x0 x : derivable_pt_lim (fun x => sin (k * (x - x0))) x (k * cos (k * (x - x0))).
Proof.
  replace (k * cos (k * (x - x0))) with (cos (k * (x - x0)) * k) by ring.
  apply (derivable_pt_lim_comp (fun x => k * (x - x0)) sin); [apply d_lin|apply derivable_pt_lim_sin].
Qed.
Lemma d_ext f g x l : (forall y, f y = g y) -> derivable_pt_lim f x l -> derivable_pt_lim g x l.
Proof. intros E H eps He. destruct (H eps He) as (d & Hd). exists d. intros h H1 H2. rewrite <- !E. auto. Qed.
Lemma box_derivative L x0 j x : derivable_pt_lim (box L x0 j) x (box' L x0 j x).
Proof.
  unfold box'. rewrite Rmult_assoc. apply (d_ext (fun x => sqrt (2 / L) * sin (INR j * PI / L * (x - x0)))).
  - intros y. unfold box. do 2 f_equal. unfold Rdiv. ring.
  - replace (INR j * PI * (x - x0) / L) with (INR j * PI / L * (x - x0)) by (unfold Rdiv; ring). apply (d_scal _ (fun x => sin (INR j * PI / L * (x - x0)))). apply d_sin.
Qed.

(** a sin/cos product integrates to two cosines *)
Lemma newton f g x0 x1 : (forall x, derivable_pt_lim g x (f x)) -> x0 <= x1 -> exists pr : Newton_integrable f x0 x1, NewtonInt f x0 x1 pr = g x1 - g x0.
Proof.
  intros H Hx. assert (A : antiderivative f g x0 x1).
  { split; [|exact Hx]. intros x _. exists (exist _ (f x) (H x)). reflexivity. }
  exists (exist _ g (or_introl A)). reflexivity.
Qed.
Lemma parity i j : INR ((i + j) mod 2) * 2 = 1 - (-1) ^ (i + j).
Proof.
  assert (E : (-1) ^ (i + j) = (-1) ^ ((i + j) mod 2)) by (rewrite (Nat.div_mod_eq (i + j) 2) at 1; rewrite Nat.add_comm; apply pow_m1_even). rewrite E. pose proof (Nat.mod_upper_bound (i + j) 2 ltac:(lia)).
  destruct ((i + j) mod 2) as [|[|m]]; [cbn; lra|cbn; lra|lia].
Qed.
Lemma cos_minus_PI p q : cos ((INR p - INR q) * PI) = (-1) ^ (p + q).
Proof. rewrite Rmult_minus_distr_r, cos_minus, !sin_INR_PI, !cos_INR_PI, pow_add. ring. Qed.
Lemma dq_integral a b i j : a < b -> exists pr : Newton_integrable (fun x => box (len a b) a (S i) x * box' (len a b) a (S j) x) a b,
  NewtonInt _ a b pr = dq a b i j.
Proof.
  intros H. set (L := len a b). assert (PL : 0 < L) by (unfold L, len; lra). pose proof PI_RGT_0. set (p := INR (S i)). set (q := INR (S j)).
  assert (Pp : 0 < p) by (apply lt_0_INR; lia). assert (Pq : 0 < q) by (apply lt_0_INR; lia).
  set (c := sqrt (2 / L)). assert (Cc : c * c = 2 / L) by (apply sqrt_sqrt; apply Rlt_le, Rdiv_lt_0_compat; lra).
  assert (Q : forall x, box L a (S i) x * box' L a (S j) x = q * PI / L / L * (sin ((p + q) * PI / L * (x - a)) + sin ((p - q) * PI / L * (x - a)))).
  { intros x. unfold box, box'. fold p q c. transitivity (c * c * (q * PI / L) * (sin (p * PI * (x - a) / L) * cos (q * PI * (x - a) / L))); [ring|]. rewrite Cc.
    replace ((p + q) * PI / L * (x - a)) with (p * PI * (x - a) / L + q * PI * (x - a) / L) by (field; lra). replace ((p - q) * PI / L * (x - a)) with (p * PI * (x - a) / L - q * PI * (x - a) / L) by (field; lra).
    rewrite sin_plus, sin_minus. field. lra. }
  assert (E1 : (p + q) * PI / L * (b - a) = (p + q) * PI) by (unfold L, len; field; lra). assert (E2 : (p - q) * PI / L * (b - a) = (p - q) * PI) by (unfold L, len; field; lra).
  assert (F1 : cos ((p + q) * PI) = (-1) ^ (i + j)). { unfold p, q. rewrite <- plus_INR, cos_INR_PI. replace (S i + S j)%nat with (i + j + 2 * 1)%nat by lia. apply pow_m1_even. }
  assert (F2 : cos ((p - q) * PI) = (-1) ^ (i + j)). { unfold p, q. rewrite cos_minus_PI. replace (S i + S j)%nat with (i + j + 2 * 1)%nat by lia. apply pow_m1_even. }
  destruct (Nat.eqb_spec i j) as [Eij|N].
  - destruct (newton (fun x => box L a (S i) x * box' L a (S j) x) (fun x => - (q / L / (p + q)) * cos ((p + q) * PI / L * (x - a))) a b) as (pr & E); [|lra|].
    + intros x. rewrite Q. replace (p - q) with 0 by (unfold p, q; rewrite Eij; ring). replace (0 * PI / L * (x - a)) with 0 by (field; lra). rewrite sin_0, Rplus_0_r.
      replace (q * PI / L / L * sin ((p + q) * PI / L * (x - a))) with (- (q / L / (p + q)) * (- ((p + q) * PI / L) * sin ((p + q) * PI / L * (x - a)))) by (field; lra).
      apply (d_scal _ (fun x => cos ((p + q) * PI / L * (x - a)))). apply d_cos.
    + exists pr. rewrite E. cbn beta. rewrite E1, F1. replace ((p + q) * PI / L * (a - a)) with 0 by (field; lra). rewrite cos_0. unfold dq. rewrite (proj2 (Nat.eqb_eq i j) Eij). rewrite Eij.
      replace (j + j)%nat with (0 + 2 * j)%nat by lia. rewrite pow_m1_even. cbn [pow]. ring.
  - assert (Pm : p - q <> 0) by (intros Z; apply N; assert (X : S i = S j) by (apply INR_eq; fold p q; lra); lia).
    destruct (newton (fun x => box L a (S i) x * box' L a (S j) x) (fun x => - (q / L / (p + q)) * cos ((p + q) * PI / L * (x - a)) + - (q / L / (p - q)) * cos ((p - q) * PI / L * (x - a))) a b) as (pr & E); [|lra|].
    + intros x. rewrite Q.
      replace (q * PI / L / L * (sin ((p + q) * PI / L * (x - a)) + sin ((p - q) * PI / L * (x - a)))) with
        (- (q / L / (p + q)) * (- ((p + q) * PI / L) * sin ((p + q) * PI / L * (x - a))) + - (q / L / (p - q)) * (- ((p - q) * PI / L) * sin ((p - q) * PI / L * (x - a)))) by (field; lra).
      apply (derivable_pt_lim_plus (fun x => - (q / L / (p + q)) * cos ((p + q) * PI / L * (x - a))) (fun x => - (q / L / (p - q)) * cos ((p - q) * PI / L * (x - a)))).
      * apply (d_scal _ (fun x => cos ((p + q) * PI / L * (x - a)))). apply d_cos.
      * apply (d_scal _ (fun x => cos ((p - q) * PI / L * (x - a)))). apply d_cos.
    + exists pr. rewrite E. cbn beta. rewrite E1, E2, F1, F2. replace ((p + q) * PI / L * (a - a)) with 0 by (field; lra). replace ((p - q) * PI / L * (a - a)) with 0 by (field; lra). rewrite cos_0.
      unfold dq. rewrite (proj2 (Nat.eqb_neq i j) N). fold p q L. assert (P := parity i j). set (s := (-1) ^ (i + j)) in *. replace (INR ((i + j) mod 2)) with ((1 - s) / 2) by lra. field. repeat split; auto; try lra.
      replace (p ^ 2 - q ^ 2) with ((p - q) * (p + q)) by ring. apply Rmult_integral_contrapositive_currified; lra.
Qed.

(** ** Interpolation *)
Section Grid.
Variables a b : R.
Variable n : nat.
Hypothesis ab : a < b.
Notation L := (len a b).
Notation u := (u n).
Lemma grid_nth i : (i < n)%nat -> nth i (grid_points a b n) 0 = a + L / (INR n + 1) * INR (S i).
Proof. intros. unfold grid_points. rewrite nth_mapseq by auto. reflexivity. Qed.
Lemma fbr_at_grid i j : (i < n)%nat -> (j < n)%nat -> fbr_func a b j (nth i (grid_points a b n) 0) = sqrt ((INR n + 1) / L) * u i j.
Proof.
  intros Hi Hj. pose proof (Pn n) as P. assert (PL : 0 < L) by (unfold len; lra). unfold fbr_func, particle_in_box. rewrite grid_nth by auto.
  assert (PS : 0 < INR (S i) < INR n + 1) by (rewrite <- S_INR; split; [apply lt_0_INR|apply lt_INR]; lia).
  assert (0 < L / (INR n + 1) * INR (S i)) by (apply Rmult_lt_0_compat; [apply Rdiv_lt_0_compat; lra|lra]).
  assert (L / (INR n + 1) * INR (S i) < L). { apply Rmult_lt_reg_r with (INR n + 1); [lra|]. replace (L / (INR n + 1) * INR (S i) * (INR n + 1)) with (L * INR (S i)) by (field; lra). apply Rmult_lt_compat_l; lra. }
  destruct (Rlt_dec a (a + L / (INR n + 1) * INR (S i))); [|lra]. destruct (Rlt_dec (a + L / (INR n + 1) * INR (S i)) (a + L)); [|lra].
  unfold Dvr_Proof.u. rewrite <- Rmult_assoc, <- sqrt_mult by (apply Rlt_le, Rdiv_lt_0_compat; lra). f_equal.
  - f_equal. field. lra.
  - f_equal. rewrite Nat.add_1_r. field. lra.
Qed.
Lemma psi_loop_ok vec x js psi : Forall (fun j => (j < length vec)%nat) js -> psi_loop a b vec x js psi = Ok (psi + sumL (K := R_star) js (fun j => fbr_func a b j x * nth j vec 0))%R.
Proof.
  revert psi. induction js as [|j js IH]; intros psi F; cbn [psi_loop].
  - f_equal. change (@eq R psi (psi + 0)). ring.
  - inversion F as [|? ? Hj F']; subst. rewrite (nth_error_nth' vec 0 Hj). rewrite IH by auto. f_equal. rewrite sumL_cons. change (@radd R_star) with Rplus. symmetry. apply (eq_sym (Rplus_assoc _ _ _)).
Qed.
Lemma fbr2cont_ok vec x : length vec = n -> fbr2cont a b n vec x = Ok (rsum n (fun j => fbr_func a b j x * nth j vec 0)).
Proof.
  intros Lv. unfold fbr2cont. rewrite psi_loop_ok by (apply Forall_forall; intros j Hj; apply in_seq in Hj; lia). f_equal. rewrite Rplus_0_l. reflexivity.
Qed.
End Grid.

(** ** Interpolation, continued *)
Section Grid2.
Variables a b : R.
Variable n : nat.
Hypothesis ab : a < b.
Notation L := (len a b).
Notation u := (u n).
Lemma dvr_func_at i k : (i < n)%nat -> (k < n)%nat -> dvr_func a b n k (nth i (grid_points a b n) 0) = Ok (if (i =? k)%nat then sqrt ((INR n + 1) / L) else 0).
Proof.
  intros Hi Hk. unfold dvr_func. rewrite fbr2cont_ok by (now rewrite map_length, seq_length). f_equal.
  rewrite (rsum_ext n _ (fun j => sqrt ((INR n + 1) / L) * (u i j * u j k))).
  - rewrite rsum_scal, usum by auto. change (@eq R (sqrt ((INR n + 1) / L) * (if (i =? k)%nat then 1 else 0)) (if (i =? k)%nat then sqrt ((INR n + 1) / L) else 0)). destruct (i =? k)%nat; ring.
  - intros j Hj. rewrite nth_mapseq by auto. rewrite fbr_at_grid by auto. destruct (u_square n) as (_ & _ & H). cbn [Nat.add]. rewrite H by auto. ring.
Qed.
Lemma dvr2cont_at v i : length v = n -> (i < n)%nat -> dvr2cont a b n v (nth i (grid_points a b n) 0) = Ok (sqrt ((INR n + 1) / L) * nth i v 0)%R.
Proof.
  intros Lv Hi. unfold dvr2cont, dvr2fbr_vec. destruct (mat_vec_ok n _ _ v (u_square n) Lv) as (w & E & Lw & H). rewrite E. cbn [bind]. rewrite fbr2cont_ok by auto. f_equal.
  rewrite (rsum_ext n _ (fun j => sqrt ((INR n + 1) / L) * (u i j * rsum n (fun k => u j k * nth k v 0)))).
  - rewrite rsum_scal. f_equal. exact (vec_twice n u (u_inv n) (fun l => nth l v 0) i Hi).
  - intros j Hj. rewrite fbr_at_grid by auto. rewrite Rmult_assoc. do 2 f_equal. exact (H j Hj).
Qed.
End Grid2.

(** ** Propagators *)
Add Ring Cp3 : (r_theory C_star).
Definition ph (x : R) : C_star := Cexp (rmul (ropp C_i) (RtoC x)).
Local Open Scope star_scope.
Lemma ph_add x y : ph x * ph y = ph (x + y)%R.
Proof. unfold ph. rewrite <- Cexp_add, RtoC_add. f_equal. ring. Qed.
Lemma ph_conj x : rconj (ph x) * ph x = 1.
Proof. unfold ph. rewrite <- Cexp_conj, <- Cexp_add. replace (rconj (- C_i * RtoC x) + - C_i * RtoC x) with (0 : C_star); [apply Cexp_0|]. apply Ceq; cbn; ring. Qed.
Lemma toC_square n M (f : nat -> nat -> R_star) : square n M f -> square n (toC M) (fun i j => RtoC (f i j)).
Proof.
  intros (W & E & H). split; [unfold wf, toC in *; cbn; now rewrite map_length|]. split; [exact E|]. intros i j Hi Hj. rewrite <- H by auto. unfold get, toC. cbn [shape data].
  change (@r0 C_star) with (RtoC 0%R). exact (map_nth RtoC (data M) 0%R _).
Qed.
Lemma sumC n (f : nat -> R) : RtoC (rsum n f) = sumn n (fun k => RtoC (f k)).
Proof. induction n as [|n IH]; [reflexivity|]. rewrite !sumn_S. change (@radd R_star) with Rplus. rewrite RtoC_add, IH. reflexivity. Qed.
Lemma phases_len hbar tau l : length (phases hbar tau l) = length l.
Proof. unfold phases. now rewrite map_length. Qed.
Lemma phases_nth hbar tau l k : (k < length l)%nat -> nth k (phases hbar tau l) 0 = ph (hbar * tau * nth k l 0)%R.
Proof. intros H. unfold phases. set (h := fun x : R => Cexp (- C_i * RtoC (hbar * tau * x))). rewrite (nth_indep _ _ (h 0%R)) by (rewrite map_length; auto). rewrite map_nth. reflexivity. Qed.

Section Eigen.
Variable n : nat.
Variable V : nat -> nat -> C_star.
Hypothesis Vreal : forall i k, rconj (V i k) = V i k.
Hypothesis Vcol : forall k l, (k < n)%nat -> (l < n)%nat -> sumn n (fun i => V i k * V i l) = delta k l.
Hypothesis Vrow : forall i j, (i < n)%nat -> (j < n)%nat -> sumn n (fun k => V i k * V j k) = delta i j.
(** V f V^T *)
Definition func (f : nat -> C_star) (i j : nat) : C_star := sumn n (fun k => V i k * (f k * V j k)).
Lemma func_mul f g i j : (i < n)%nat -> (j < n)%nat -> sumn n (fun k => func f i k * func g k j) = func (fun k => f k * g k) i j.
Proof.
  intros Hi Hj. unfold func.
  rewrite (sumn_ext C_star n _ (fun k => sumn n (fun p => sumn n (fun q => (V i p * f p * g q * V j q) * (V k p * V k q))))).
  2: { intros k Hk. rewrite <- sumn_scal_r. apply sumn_ext. intros p Hp. rewrite <- sumn_scal_l. apply sumn_ext. intros q Hq. ring. }
  rewrite sumn_swap. apply sumn_ext. intros p Hp. rewrite sumn_swap.
  rewrite (sumn_ext C_star n _ (fun q => (V i p * f p * g q * V j q) * delta q p)) by (intros q Hq; rewrite sumn_scal_l, Vcol, (delta_sym C_star p q) by auto; reflexivity).
  rewrite (delta_sum_r n p (fun q => V i p * f p * g q * V j q)) by auto. ring.
Qed.
Lemma func_conj f i j : rconj (func f i j) = func (fun k => rconj (f k)) j i.
Proof. unfold func. rewrite rconj_sumn. apply sumn_ext. intros k Hk. rewrite !rconj_mul, !Vreal. ring. Qed.
Lemma func_one i j : (i < n)%nat -> (j < n)%nat -> func (fun _ => 1) i j = delta i j.
Proof. intros. rewrite <- Vrow by auto. apply sumn_ext. intros. ring. Qed.
Lemma func_vec f i k : (i < n)%nat -> (k < n)%nat -> sumn n (fun j => func f i j * V j k) = f k * V i k.
Proof.
  intros Hi Hk. unfold func. rewrite (sumn_ext C_star n _ (fun j => sumn n (fun p => (V i p * f p) * (V j p * V j k)))) by (intros; rewrite <- sumn_scal_r; apply sumn_ext; intros; ring).
  rewrite sumn_swap. rewrite (sumn_ext C_star n _ (fun p => (V i p * f p) * delta p k)) by (intros p Hp; rewrite sumn_scal_l, Vcol by auto; reflexivity).
  rewrite (delta_sum_r n k (fun p => V i p * f p)) by auto. ring.
Qed.
End Eigen.

Lemma diag_of_ok n M (f : nat -> nat -> R_star) : square n M f -> length (diag_of M) = n /\ forall i, (i < n)%nat -> nth i (diag_of M) 0%R = f i i.
Proof.
  intros (W & E & H). unfold diag_of. rewrite E. cbn [nth]. split; [now rewrite map_length, seq_length|]. intros i Hi. rewrite nth_mapseq by auto. apply H; auto.
Qed.
Lemma propagator_ok a b n hbar m_e v_func eigh tau T l V :
  t_mat a b n hbar m_e = Ok T -> eigh T = (l, V) -> eigen_decomposition n T l V ->
  exists p1 p2 p3, propagator a b n hbar m_e v_func eigh tau = Ok (p1, p2, p3) /\
    square n p1 (fun i j => delta i j * ph (hbar * tau * (v_func (nth i (grid_points a b n) 0) / 2))%R) /\
    square n p2 (fun i j => delta i j * ph (hbar * tau * v_func (nth i (grid_points a b n) 0))%R) /\
    square n p3 (func n (fun i k => RtoC (get V [i; k])) (fun k => ph (hbar * tau * nth k l 0)%R)).
Proof.
  intros ET EV ((WV & SV) & Ll & He & Hc & Hr). unfold propagator. rewrite ET. cbn [bind]. rewrite EV.
  pose proof (toC_square n V _ (square_self n V (conj WV SV))) as HV. pose proof (square_diag n (phases hbar tau l) ltac:(now rewrite phases_len)) as Hd.
  destruct (square_mul n _ _ _ _ Hd (square_T n _ _ HV)) as (Y & EY & HY). rewrite EY. cbn [bind]. destruct (square_mul n _ _ _ _ HV HY) as (p3 & E3 & H3). rewrite E3. cbn [bind].
  assert (Lg : length (map v_func (grid_points a b n)) = n) by (rewrite map_length; unfold grid_points; now rewrite map_length, seq_length).
  pose proof (square_diag n (map v_func (grid_points a b n) : list R_star) Lg) as Hv.
  assert (Nv : forall i, (i < n)%nat -> nth i (map v_func (grid_points a b n)) 0%R = v_func (nth i (grid_points a b n) 0%R)).
  { intros i Hi. rewrite (nth_indep _ _ (v_func 0%R)) by (rewrite Lg; auto). apply map_nth. }
  destruct (diag_of_ok n _ _ Hv) as (L2 & N2). destruct (diag_of_ok n _ _ (square_scale n _ _ (0.5%R : R_star) Hv)) as (L1 & N1).
  unfold v_mat. eexists _, _, _. split; [reflexivity|]. split; [|split].
  - eapply square_ext; [apply (square_diag n); rewrite phases_len; exact L1|]. intros i j Hi Hj. cbn beta. f_equal. rewrite phases_nth by (rewrite L1; auto). f_equal. f_equal. rewrite N1 by auto.
    unfold delta. rewrite Nat.eqb_refl. change (@rmul R_star) with Rmult. change (@r0 R_star) with 0%R. change (@r1 R_star) with 1%R. etransitivity; [exact (f_equal (fun z => (0.5 * (1 * z))%R) (Nv i Hi))|lra].
  - eapply square_ext; [apply (square_diag n); rewrite phases_len; exact L2|]. intros i j Hi Hj. cbn beta. f_equal. rewrite phases_nth by (rewrite L2; auto). f_equal. f_equal. rewrite N2 by auto.
    unfold delta. rewrite Nat.eqb_refl. change (@rmul R_star) with Rmult. change (@r0 R_star) with 0%R. change (@r1 R_star) with 1%R. etransitivity; [exact (f_equal (fun z => (1 * z)%R) (Nv i Hi))|lra].
  - eapply square_ext; [exact H3|]. intros i j Hi Hj. cbn beta. unfold func. apply sumn_ext. intros k Hk. f_equal.
    rewrite (sumn_ext C_star n _ (fun q => delta k q * (nth k (phases hbar tau l) 0 * RtoC (get V [j; q])))) by (intros; ring).
    rewrite (delta_sum_l n k (fun q => nth k (phases hbar tau l) 0 * RtoC (get V [j; q]))) by auto. rewrite phases_nth by (exact (eq_ind_r (fun z => k < z)%nat Hk Ll)). reflexivity.
Qed.
Lemma eigen_facts n T l V : eigen_decomposition n T l V ->
  (forall k k', (k < n)%nat -> (k' < n)%nat -> sumn n (fun i => RtoC (get V [i; k]) * RtoC (get V [i; k'])) = (delta k k' : C_star)) /\
  (forall i j, (i < n)%nat -> (j < n)%nat -> sumn n (fun k => RtoC (get V [i; k]) * RtoC (get V [j; k])) = (delta i j : C_star)).
Proof.
  assert (D : forall i j, RtoC (delta i j : R_star) = (delta i j : C_star)) by (intros; unfold delta; destruct (i =? j)%nat; reflexivity).
  intros (_ & _ & _ & Hc & Hr). split; intros i j Hi Hj; rewrite <- D; [rewrite <- (Hc i j Hi Hj)|rewrite <- (Hr i j Hi Hj)]; etransitivity; [|symmetry; apply sumC| |symmetry; apply sumC]; apply sumn_ext; intros; symmetry; apply RtoC_mul.
Qed.
