(** Proofs about the sine representation. *)
From Coq Require Import List Arith Bool Lia Reals Lra.
From Verif Require Import Py Alg Ord Cplx ListX NdArray_Model NdArray_Proof Projector_Proof Dvr_Model Dvr_Spec.
Import ListNotations.
Local Open Scope R_scope.

Notation rsum n f := (@sumn R_star n f : R).

(** ** Trigonometric sums *)
Lemma cos_INR_PI m : cos (INR m * PI) = (-1) ^ m.
Proof.
  induction m as [|m IH]; [cbn; rewrite Rmult_0_l; apply cos_0|]. rewrite S_INR, Rmult_plus_distr_r, Rmult_1_l, neg_cos, IH. cbn [pow]. lra.
Qed.
Lemma sin_INR_PI m : sin (INR m * PI) = 0.
Proof. apply sin_eq_0_1. exists (Z.of_nat m). now rewrite INR_IZR_INZ. Qed.

(** 2 sin (x/2) (cos x + ... + cos n x) = sin ((n + 1/2) x) - sin (x/2) *)
Lemma cos_sum x n : 2 * sin (x / 2) * rsum n (fun k => cos (INR (S k) * x)) = sin ((INR n + / 2) * x) - sin (x / 2).
Proof.
  induction n as [|n IH].
  - change (rsum 0 (fun k => cos (INR (S k) * x))) with 0. cbn [INR]. replace ((0 + / 2) * x) with (x / 2) by field. ring.
  - rewrite sumn_S. change (@radd R_star) with Rplus. rewrite Rmult_plus_distr_l, IH. rewrite S_INR.
    replace ((INR n + 1 + / 2) * x) with ((INR n + 1) * x + x / 2) by field. replace ((INR n + / 2) * x) with ((INR n + 1) * x - x / 2) by field.
    rewrite sin_plus, sin_minus. ring.
Qed.
Lemma cos_sum_grid n m : (0 < m < 2 * S n)%nat -> rsum n (fun k => cos (INR (S k) * (INR m * PI / (INR n + 1)))) = (- (-1) ^ m - 1) / 2.
Proof.
  intros [H1 H2]. pose proof PI_RGT_0. assert (Pn : 0 < INR n + 1) by (pose proof (pos_INR n); lra). set (x := INR m * PI / (INR n + 1)).
  assert (P : 0 < sin (x / 2)).
  { apply sin_gt_0.
    - unfold x. apply Rdiv_lt_0_compat; [|lra]. apply Rdiv_lt_0_compat; [|lra]. apply Rmult_lt_0_compat; [apply lt_0_INR; lia|lra].
    - unfold x. apply lt_INR in H2. rewrite mult_INR, (S_INR n) in H2. cbn [INR] in H2. apply Rmult_lt_reg_r with (2 * (INR n + 1)); [lra|].
      replace (INR m * PI / (INR n + 1) / 2 * (2 * (INR n + 1))) with (PI * INR m) by (field; lra). apply Rmult_lt_compat_l; lra. }
  pose proof (cos_sum x n) as E. replace ((INR n + / 2) * x) with (INR m * PI - x / 2) in E by (unfold x; field; lra).
  rewrite sin_minus, sin_INR_PI, cos_INR_PI in E. set (T := rsum n _) in *. clearbody T. apply Rmult_eq_reg_l with (2 * sin (x / 2)); [|lra]. rewrite E. field.
Qed.

Lemma sin_prod x y : sin x * sin y = (cos (x - y) - cos (x + y)) / 2.
Proof. rewrite cos_minus, cos_plus. field. Qed.
Lemma pow_m1_even m k : (-1) ^ (m + 2 * k) = (-1) ^ m.
Proof. rewrite pow_add, pow_mult. replace ((-1) ^ 2) with 1 by ring. rewrite pow1. ring. Qed.
Lemma cos_sum_sub n f g : rsum n (fun k => (f k - g k) / 2) = (rsum n f - rsum n g) / 2.
Proof. induction n as [|n IH]; [change (0 = (0 - 0) / 2); field|]. rewrite !sumn_S, IH. change (@radd R_star) with Rplus. field. Qed.
Lemma sum_one n : rsum n (fun _ => 1) = INR n.
Proof. induction n as [|n IH]; [reflexivity|]. rewrite sumn_S, IH, S_INR. reflexivity. Qed.

Lemma sine_le n i j : (j <= i)%nat -> (i < n)%nat ->
  rsum n (fun k => sin (INR (S i) * INR (S k) * PI / (INR n + 1)) * sin (INR (S j) * INR (S k) * PI / (INR n + 1))) = if (i =? j)%nat then (INR n + 1) / 2 else 0.
Proof.
  intros Hj Hi. assert (Pn : INR n + 1 <> 0) by (pose proof (pos_INR n); lra).
  rewrite (sumn_ext R_star n _ (fun k => (cos (INR (S k) * (INR (i - j) * PI / (INR n + 1))) - cos (INR (S k) * (INR (S i + S j) * PI / (INR n + 1)))) / 2)).
  2: { intros k Hk. change (@rmul R_star) with Rmult. rewrite sin_prod. rewrite plus_INR, minus_INR by lia. f_equal. f_equal; f_equal; rewrite ?S_INR; field; auto. }
  rewrite cos_sum_sub, (cos_sum_grid n (S i + S j)) by lia. destruct (Nat.eqb_spec i j) as [<-|N].
  - rewrite Nat.sub_diag. rewrite (sumn_ext R_star n _ (fun _ => 1)) by (intros a Ha; change (INR 0) with 0; replace (INR (S a) * (0 * PI / (INR n + 1))) with 0 by (field; auto); apply cos_0).
    rewrite sum_one. replace (S i + S i)%nat with (0 + 2 * S i)%nat by lia. rewrite pow_m1_even. cbn [pow]. field.
  - rewrite cos_sum_grid by lia. replace (S i + S j)%nat with (i - j + 2 * S j)%nat by lia. rewrite pow_m1_even. field.
Qed.
Lemma sine_orth n i j : (i < n)%nat -> (j < n)%nat ->
  rsum n (fun k => sin (INR (S i) * INR (S k) * PI / (INR n + 1)) * sin (INR (S j) * INR (S k) * PI / (INR n + 1))) = if (i =? j)%nat then (INR n + 1) / 2 else 0.
Proof.
  intros Hi Hj. destruct (Nat.le_ge_cases j i) as [H|H]; [apply sine_le; auto|].
  rewrite Nat.eqb_sym, <- (sine_le n j i H Hj). apply (sumn_ext R_star). intros k Hk. apply Rmult_comm.
Qed.

(** ** Matrices *)
Section Square.
Context {K : StarRing}.
Add Ring Kr : (r_theory K).
Local Open Scope star_scope.

Lemma get_sq n m (f : list nat -> K) i j : (i < n)%nat -> (j < m)%nat -> get (build [n; m] f) [i; j] = f [i; j].
Proof. intros. apply get_build. apply in_range2; auto. Qed.
Lemma square_build n (f : nat -> nat -> K) : square n (build [n; n] (fun x => f (nth 0 x O) (nth 1 x O))) f.
Proof. split; [apply wf_build|]. split; [reflexivity|]. intros. rewrite get_sq by auto. reflexivity. Qed.
Lemma square_ext n M (f g : nat -> nat -> K) : square n M f -> (forall i j, (i < n)%nat -> (j < n)%nat -> f i j = g i j) -> square n M g.
Proof. intros (W & E & H) X. split; auto. split; auto. intros. rewrite H by auto. auto. Qed.
Lemma square_eq n M N (f : nat -> nat -> K) : square n M f -> square n N f -> M = N.
Proof.
  intros (W & E & H) (W' & E' & H'). apply arr_ext; auto; [congruence|]. intros idx R. rewrite E in R. destruct (in_range2_inv _ _ _ R) as (i & j & -> & Hi & Hj). rewrite H, H' by auto. reflexivity.
Qed.
Lemma square_self n M : is_matrix M n n -> square n M (fun i j => get M [i; j] : K).
Proof. intros (W & E). split; auto. Qed.
Lemma square_mul n M N (f g : nat -> nat -> K) : square n M f -> square n N g -> exists P, matmul M N = Ok P /\ square n P (fun i j => sumn n (fun k => f i k * g k j)).
Proof.
  intros (W & E & H) (W' & E' & H'). rewrite (matmul_ok K M N n n n E E'). eexists. split; [reflexivity|]. split; [apply wf_build|]. split; [reflexivity|].
  intros i j Hi Hj. rewrite get_sq by auto. cbn [nth]. apply sumn_ext. intros k Hk. rewrite H, H' by auto. reflexivity.
Qed.
Lemma square_add n M N (f g : nat -> nat -> K) : square n M f -> square n N g -> exists P, arr_add M N = Ok P /\ square n P (fun i j => f i j + g i j).
Proof.
  intros (W & E & H) (W' & E' & H'). eexists. split; [apply arr_add_ok; auto; congruence|]. split; [apply wf_build|]. rewrite E. split; [reflexivity|].
  intros i j Hi Hj. rewrite get_sq by auto. rewrite H, H' by auto. reflexivity.
Qed.
Lemma square_scale n M (f : nat -> nat -> K) c : square n M f -> square n (arr_scale c M) (fun i j => c * f i j).
Proof. intros (W & E & H). split; [apply wf_scale; auto|]. split; [exact E|]. intros. rewrite get_scale, H by auto. reflexivity. Qed.
Lemma square_T n M (f : nat -> nat -> K) : square n M f -> square n (mat_T M) (fun i j => f j i).
Proof.
  intros (W & E & H). split; [apply wf_transpose|]. split; [apply shape_mat_T; auto|]. intros i j Hi Hj. rewrite (get_mat_T K M n n) by auto. apply H; auto.
Qed.
Lemma square_diag n (v : list K) : length v = n -> square n (np_diag v) (fun i j => delta i j * nth i v 0).
Proof. intros <-. unfold np_diag. split; [apply wf_build|]. split; [reflexivity|]. intros. rewrite get_sq by auto. reflexivity. Qed.
Lemma delta_sum_l n i (f : nat -> K) : (i < n)%nat -> sumn n (fun k => delta i k * f k) = f i.
Proof. intros H. rewrite (sumn_single K n i) by (auto; intros k Hk Ne; unfold delta; rewrite (proj2 (Nat.eqb_neq i k)) by auto; ring). unfold delta. rewrite Nat.eqb_refl. ring. Qed.
Lemma delta_sum_r n j (f : nat -> K) : (j < n)%nat -> sumn n (fun k => f k * delta k j) = f j.
Proof. intros H. rewrite (sumn_single K n j) by (auto; intros k Hk Ne; unfold delta; rewrite (proj2 (Nat.eqb_neq k j)) by auto; ring). unfold delta. rewrite Nat.eqb_refl. ring. Qed.
Lemma mat_vec_ok n M (f : nat -> nat -> K) v : square n M f -> length v = n ->
  exists w, mat_vec M v = Ok w /\ length w = n /\ forall i, (i < n)%nat -> nth i w 0 = sumn n (fun k => f i k * nth k v 0).
Proof.
  intros (W & E & H) L. unfold mat_vec. rewrite E, L, Nat.eqb_refl. eexists. split; [reflexivity|]. split; [rewrite map_length, seq_length; auto|]. intros i Hi.
  set (h := fun i => sumn n _). rewrite (nth_indep _ _ (h O)) by (rewrite map_length, seq_length; auto). rewrite map_nth, seq_nth by auto. unfold h. apply sumn_ext. intros. cbn [Nat.add]. rewrite H by auto. reflexivity.
Qed.
Lemma mat_vec_fail n M (f : nat -> nat -> K) v : square n M f -> length v <> n -> mat_vec M v = Raise ValueError.
Proof. intros (W & E & H) L. unfold mat_vec. rewrite E, (proj2 (Nat.eqb_neq _ _) L). reflexivity. Qed.

(** A symmetric matrix whose square is one *)
Variable n : nat.
Variable u : nat -> nat -> K.
Hypothesis u_sym : forall i j, (i < n)%nat -> (j < n)%nat -> u i j = u j i.
Hypothesis u_inv : forall i j, (i < n)%nat -> (j < n)%nat -> sumn n (fun k => u i k * u k j) = delta i j.
Lemma conj_twice (f : nat -> nat -> K) i j : (i < n)%nat -> (j < n)%nat ->
  sumn n (fun k => u i k * sumn n (fun l => sumn n (fun k' => u k k' * sumn n (fun l' => f k' l' * u l' l)) * u l j)) = f i j.
Proof.
  intros Hi Hj.
  transitivity (sumn n (fun k => u i k * sumn n (fun k' => u k k' * f k' j))).
  - apply sumn_ext. intros k Hk. f_equal. rewrite (sumn_ext K n _ (fun l => sumn n (fun k' => (u k k' * sumn n (fun l' => f k' l' * u l' l)) * u l j))) by (intros; now rewrite sumn_scal_r).
    rewrite sumn_swap. apply sumn_ext. intros k' Hk'.
    rewrite (sumn_ext K n _ (fun l => u k k' * (sumn n (fun l' => f k' l' * u l' l) * u l j))) by (intros; ring). rewrite sumn_scal_l. f_equal.
    rewrite (sumn_ext K n _ (fun l => sumn n (fun l' => f k' l' * (u l' l * u l j)))) by (intros; rewrite <- sumn_scal_r; apply sumn_ext; intros; ring).
    rewrite sumn_swap. rewrite (sumn_ext K n _ (fun l' => f k' l' * delta l' j)) by (intros; rewrite sumn_scal_l, u_inv by auto; reflexivity). apply delta_sum_r; auto.
  - rewrite (sumn_ext K n _ (fun k => sumn n (fun k' => (u i k * u k k') * f k' j))) by (intros; rewrite <- sumn_scal_l; apply sumn_ext; intros; ring).
    rewrite sumn_swap. rewrite (sumn_ext K n _ (fun k' => delta i k' * f k' j)) by (intros; rewrite sumn_scal_r, u_inv by auto; reflexivity). apply (delta_sum_l n i (fun k => f k j)); auto.
Qed.
Lemma vec_twice (f : nat -> K) i : (i < n)%nat -> sumn n (fun k => u i k * sumn n (fun l => u k l * f l)) = f i.
Proof.
  intros Hi. rewrite (sumn_ext K n _ (fun k => sumn n (fun l => (u i k * u k l) * f l))) by (intros; rewrite <- sumn_scal_l; apply sumn_ext; intros; ring).
  rewrite sumn_swap. rewrite (sumn_ext K n _ (fun l => delta i l * f l)) by (intros; rewrite sumn_scal_r, u_inv by auto; reflexivity). apply delta_sum_l; auto.
Qed.
End Square.

Section Sine_proof.
Variables a b : R.
Variable n : nat.
Variables hbar m_e : R.

Definition u (i j : nat) : R_star := (sqrt (2 / (INR n + 1)) * sin (INR (S i) * INR (S j) * PI / (INR n + 1)))%R.
Lemma Pn : 0 < INR n + 1.
Proof. pose proof (pos_INR n). lra. Qed.
Lemma u_square : square n (u_mat n) u.
Proof. apply (square_build n u). Qed.
Lemma u_sym i j : u i j = u j i.
Proof. unfold u. do 2 f_equal. apply (f_equal (fun x => x * PI / (INR n + 1))). apply Rmult_comm. Qed.
Lemma u_inv i j : (i < n)%nat -> (j < n)%nat -> sumn n (fun k => rmul (u i k) (u k j)) = delta i j.
Proof.
  intros Hi Hj. pose proof Pn. set (c := sqrt (2 / (INR n + 1))). assert (Ec : c * c = 2 / (INR n + 1)) by (apply sqrt_sqrt; apply Rlt_le, Rdiv_lt_0_compat; lra).
  transitivity (@rmul R_star (c * c)%R (rsum n (fun k => (sin (INR (S i) * INR (S k) * PI / (INR n + 1)) * sin (INR (S j) * INR (S k) * PI / (INR n + 1)))%R))).
  - rewrite <- sumn_scal_l. apply sumn_ext. intros k Hk. rewrite (u_sym k j). unfold u. fold c. change (@rmul R_star) with Rmult. set (x := sin _). set (y := sin _). clearbody x y c.
    change (@eq R (c * x * (c * y)) (c * c * (x * y))). ring.
  - rewrite sine_orth, Ec by auto. unfold delta. change (@rmul R_star) with Rmult. destruct (i =? j)%nat; [change (@eq R (2 / (INR n + 1) * ((INR n + 1) / 2)) 1); field; lra|apply Rmult_0_r].
Qed.
Lemma uT_square : square n (mat_T (u_mat n)) u.
Proof. eapply square_ext; [apply square_T, u_square|]. intros. apply u_sym. Qed.
Lemma f2d_square M (f : nat -> nat -> R_star) : square n M f -> exists F, fbr2dvr_mat n M = Ok F /\ square n F (fun i j => sumn n (fun k => rmul (u i k) (sumn n (fun l => rmul (f k l) (u l j))))).
Proof.
  intros H. unfold fbr2dvr_mat. destruct (square_mul n _ _ _ _ H u_square) as (Y & EY & HY). rewrite EY. cbn [bind].
  exact (square_mul n _ _ _ _ uT_square HY).
Qed.
Lemma d2f_square M (f : nat -> nat -> R_star) : square n M f -> exists F, dvr2fbr_mat n M = Ok F /\ square n F (fun i j => sumn n (fun k => rmul (u i k) (sumn n (fun l => rmul (f k l) (u l j))))).
Proof.
  intros H. unfold dvr2fbr_mat. destruct (square_mul n _ _ _ _ H uT_square) as (Y & EY & HY). rewrite EY. cbn [bind].
  exact (square_mul n _ _ _ _ u_square HY).
Qed.
Lemma roundtrip M : is_matrix M n n -> exists F G, fbr2dvr_mat n M = Ok F /\ dvr2fbr_mat n F = Ok M /\ dvr2fbr_mat n M = Ok G /\ fbr2dvr_mat n G = Ok M.
Proof.
  intros H. pose proof (square_self n M H) as HM. destruct (f2d_square M _ HM) as (F & EF & HF). destruct (d2f_square M _ HM) as (G & EG & HG).
  destruct (d2f_square F _ HF) as (M' & EM & HM'). destruct (f2d_square G _ HG) as (M2 & EM2 & HM2). exists F, G. split; auto.
  split; [rewrite EM; f_equal|split; auto; rewrite EM2; f_equal]; (eapply square_eq; [|exact HM]); (eapply square_ext; [eassumption|]); intros i j Hi Hj; cbn beta; apply (conj_twice n u u_inv (fun i j => get M [i; j])); auto.
Qed.
Lemma list_ext_n (v w : list R_star) : length v = n -> length w = n -> (forall i, (i < n)%nat -> nth i v r0 = nth i w r0) -> v = w.
Proof. intros L1 L2 H. apply (nth_ext_d r0); [congruence|]. intros i Hi. apply H. lia. Qed.
Lemma roundtrip_vec v : length v = n -> exists f g, fbr2dvr_vec n v = Ok f /\ dvr2fbr_vec n f = Ok v /\ dvr2fbr_vec n v = Ok g /\ fbr2dvr_vec n g = Ok v.
Proof.
  intros L. unfold fbr2dvr_vec, dvr2fbr_vec. destruct (mat_vec_ok n _ _ v uT_square L) as (f & Ef & Lf & Hf). destruct (mat_vec_ok n _ _ v u_square L) as (g & Eg & Lg & Hg).
  destruct (mat_vec_ok n _ _ f u_square Lf) as (v1 & E1 & L1 & H1). destruct (mat_vec_ok n _ _ g uT_square Lg) as (v2 & E2 & L2 & H2). exists f, g. split; auto.
  split; [rewrite E1; f_equal|split; auto; rewrite E2; f_equal]; apply list_ext_n; auto; intros i Hi.
  - rewrite H1 by auto. rewrite (sumn_ext R_star n _ (fun k => rmul (u i k) (sumn n (fun l => rmul (u k l) (nth l v r0))))) by (intros; rewrite Hf by auto; reflexivity).
    apply (vec_twice n u u_inv (fun l => nth l v r0)); auto.
  - rewrite H2 by auto. rewrite (sumn_ext R_star n _ (fun k => rmul (u i k) (sumn n (fun l => rmul (u k l) (nth l v r0))))) by (intros; rewrite Hg by auto; reflexivity).
    apply (vec_twice n u u_inv (fun l => nth l v r0)); auto.
Qed.
End Sine_proof.
