(** Kinetic energy, derivative, interpolation and propagators of the sine representation. *)
From Coq Require Import List Arith Bool Lia Reals Lra.
From Verif Require Import Py Alg Ord Cplx ListX NdArray_Model NdArray_Proof Dvr_Model Dvr_Spec Dvr_Proof.
Import ListNotations.
Local Open Scope R_scope.

Notation rsum n f := (@sumn R_star n f : R).
Lemma rsum_ext n (f g : nat -> R) : (forall k, (k < n)%nat -> f k = g k) -> rsum n f = rsum n g.
Proof. apply (sumn_ext R_star). Qed.
Lemma rsum_scal n c (f : nat -> R) : rsum n (fun k => c * f k) = c * rsum n f.
Proof. apply (sumn_scal_l R_star). Qed.
Lemma rsum_add n (f g : nat -> R) : rsum n (fun k => f k + g k) = rsum n f + rsum n g.
Proof. apply (sumn_add R_star). Qed.
Lemma rsum_swap n m (f : nat -> nat -> R) : rsum n (fun k => rsum m (f k)) = rsum m (fun l => rsum n (fun k => f k l)).
Proof. apply (sumn_swap R_star). Qed.
Lemma rsum_opp n (f : nat -> R) : rsum n (fun k => - f k) = - rsum n f.
Proof. rewrite (rsum_ext n _ (fun k => -1 * f k)) by (intros; ring). rewrite rsum_scal. ring. Qed.
Lemma nth_mapseq {A} (h : nat -> A) s n k d : (k < n)%nat -> nth k (map h (seq s n)) d = h (s + k)%nat.
Proof. intros H. rewrite (nth_indep _ _ (h O)) by (rewrite map_length, seq_length; auto). rewrite map_nth, seq_nth by auto. reflexivity. Qed.

Section Sine_proof.
Variables a b : R.
Variable n : nat.
Variables hbar m_e : R.
Notation u := (u n).
Notation L := (len a b).

Lemma usum i j : (i < n)%nat -> (j < n)%nat -> rsum n (fun k => u i k * u k j) = if (i =? j)%nat then 1 else 0.
Proof. intros Hi Hj. etransitivity; [exact (u_inv n i j Hi Hj)|]. unfold delta. destruct (i =? j)%nat; reflexivity. Qed.

(** ** Kinetic energy *)
Lemma t_diag_nth k : (k < n)%nat -> nth k (t_diag a b n) 0 = - (INR (S k) * PI / L) ^ 2.
Proof. intros. unfold t_diag. rewrite nth_mapseq by auto. reflexivity. Qed.
Lemma t_diag_len : length (t_diag a b n) = n.
Proof. unfold t_diag. now rewrite map_length, seq_length. Qed.
Lemma dq2_square : exists D, dq2_mat a b n = Ok D /\ square n D (fun i j => rsum n (fun k => u i k * (- (INR (S k) * PI / L) ^ 2) * u k j)).
Proof.
  unfold dq2_mat. destruct (f2d_square n _ _ (square_diag n (t_diag a b n : list R_star) t_diag_len)) as (D & E & H). exists D. split; [exact E|].
  eapply square_ext; [exact H|]. intros i j Hi Hj. cbn beta. apply rsum_ext. intros k Hk.
  rewrite (sumn_ext R_star n _ (fun l => rmul (delta k l) (rmul (nth k (t_diag a b n : list R_star) r0) (u l j)))).
  - rewrite (delta_sum_l n k (fun l => rmul (nth k (t_diag a b n : list R_star) r0) (u l j))) by auto. change (@rmul R_star) with Rmult. change (@r0 R_star) with 0. rewrite t_diag_nth by auto. rewrite <- Rmult_assoc. reflexivity.
  - intros l Hl. change (@rmul R_star) with Rmult. rewrite Rmult_assoc. reflexivity.
Qed.
Definition energy (k : nat) : R := (hbar * INR (S k) * PI / L) ^ 2 / (2 * m_e).
Lemma t_square : exists D T, dq2_mat a b n = Ok D /\ t_mat a b n hbar m_e = Ok T /\ T = arr_scale (K := R_star) (- hbar ^ 2 / (2 * m_e)) D /\ square n T (fun i j => rsum n (fun k => u i k * energy k * u k j)).
Proof.
  destruct dq2_square as (D & E & H). exists D. unfold t_mat. unfold dq2_mat in E. unfold dq2_mat. rewrite E. cbn [bind]. eexists. split; [reflexivity|]. split; [reflexivity|]. split; [reflexivity|].
  eapply square_ext; [apply square_scale; exact H|]. intros i j Hi Hj. cbn beta. change (@rmul R_star) with Rmult. rewrite <- rsum_scal. apply rsum_ext. intros k Hk. unfold energy, Rdiv. ring.
Qed.
Lemma t_symmetric T : t_mat a b n hbar m_e = Ok T -> forall i j, (i < n)%nat -> (j < n)%nat -> get T [i; j] = get T [j; i].
Proof.
  destruct t_square as (D & T' & _ & E & _ & (_ & _ & H)). rewrite E. intros [= <-] i j Hi Hj. rewrite !H by auto. apply rsum_ext. intros k Hk. rewrite (u_sym n i k), (u_sym n k j). change (u k i * energy k * u j k = u j k * energy k * u k i). ring.
Qed.
Lemma t_eigen T k i : t_mat a b n hbar m_e = Ok T -> (k < n)%nat -> (i < n)%nat -> rsum n (fun j => get T [i; j] * u j k) = energy k * u i k.
Proof.
  destruct t_square as (D & T' & _ & E & _ & (_ & _ & H)). rewrite E. intros [= <-] Hk Hi.
  rewrite (rsum_ext n _ (fun j => rsum n (fun l => u i l * energy l * (u l j * u j k)))).
  2: { intros j Hj. rewrite H by auto. rewrite Rmult_comm, <- rsum_scal. apply rsum_ext. intros. ring. }
  rewrite rsum_swap. rewrite (rsum_ext n _ (fun l => if (l =? k)%nat then u i l * energy l else 0)).
  2: { intros l Hl. rewrite rsum_scal, usum by auto. destruct (l =? k)%nat; ring. }
  rewrite (sumn_single R_star n k) by (auto; intros l Hl N; rewrite (proj2 (Nat.eqb_neq l k)) by auto; reflexivity). rewrite Nat.eqb_refl. apply Rmult_comm.
Qed.

(** ** First derivative *)
Definition dq (i j : nat) : R := if (i =? j)%nat then 0 else INR ((i + j) mod 2) * 4 * INR (S i) * INR (S j) / (INR (S i) ^ 2 - INR (S j) ^ 2) / L.
Lemma dq_square : square n (dq_fbr a b n) dq.
Proof. apply (square_build n (dq : nat -> nat -> R_star)). Qed.
Lemma dq_anti i j : dq i j = - dq j i.
Proof.
  unfold dq. rewrite (Nat.eqb_sym j i). destruct (i =? j)%nat; [ring|]. rewrite (Nat.add_comm j i). unfold Rdiv. rewrite <- (Ropp_minus_distr (INR (S j) ^ 2) (INR (S i) ^ 2)).
  destruct (Req_dec (INR (S j) ^ 2 - INR (S i) ^ 2) 0) as [Z|Z]; [rewrite Z, Ropp_0, Rinv_0; ring|]. rewrite Rinv_opp. ring.
Qed.
Lemma dq_dvr : exists M, fbr2dvr_mat n (dq_fbr a b n) = Ok M /\ dq_mat a b n = Ok M /\ is_matrix M n n /\ forall i j, (i < n)%nat -> (j < n)%nat -> get M [i; j] = (- (get M [j; i] : R))%R.
Proof.
  destruct (f2d_square n _ _ dq_square) as (M & E & HM). pose proof HM as (W & S & H). exists M. split; [exact E|].
  assert (A : forall i j, (i < n)%nat -> (j < n)%nat -> get M [i; j] = (- (get M [j; i] : R))%R).
  { intros i j Hi Hj. rewrite !H by auto. rewrite <- rsum_opp. change (@rmul R_star) with Rmult.
    transitivity (rsum n (fun k => rsum n (fun l => u i k * (dq k l * u l j)))); [apply rsum_ext; intros; symmetry; apply rsum_scal|]. rewrite rsum_swap. apply rsum_ext. intros l Hl.
    rewrite Ropp_mult_distr_r, <- rsum_opp, <- rsum_scal. apply rsum_ext. intros k Hk. rewrite (dq_anti k l), (u_sym n i k), (u_sym n l j). change (u k i * (- dq l k * u j l) = u j l * - (dq l k * u k i)). ring. }
  split; [|split; [split; auto|exact A]]. unfold dq_mat. rewrite E. cbn [bind]. f_equal. apply (square_eq n _ _ (fun i j => get M [i; j])); [|apply square_self; split; auto].
  unfold clear_diag. rewrite S. split; [apply wf_build|]. split; [reflexivity|]. intros i j Hi Hj. rewrite get_sq by auto. cbn [nth]. destruct (Nat.eqb_spec i j) as [<-|N]; [|reflexivity].
  pose proof (A i i Hi Hi) as Z. set (x := get M [i; i]) in *. clearbody x. change (@eq R 0 x). change (@eq R x (- x)) in Z. lra.
Qed.

(** ** The sine transform *)
Lemma vmulR_nth (x y : rvec) i : (i < length x)%nat -> (i < length y)%nat -> nth i (vmulR x y) 0 = nth i x 0 * nth i y 0.
Proof. revert y i. induction x as [|p x IH]; intros [|q y] [|i] H1 H2; cbn in *; try lia; auto. apply IH; lia. Qed.
Lemma vaddR_nth (x y : rvec) i : (i < length x)%nat -> (i < length y)%nat -> nth i (vaddR x y) 0 = nth i x 0 + nth i y 0.
Proof. revert y i. induction x as [|p x IH]; intros [|q y] [|i] H1 H2; cbn in *; try lia; auto. apply IH; lia. Qed.
Lemma vmulR_len (x y : rvec) : length (vmulR x y) = min (length x) (length y).
Proof. unfold vmulR. now rewrite map_length, combine_length. Qed.
Lemma vaddR_len (x y : rvec) : length (vaddR x y) = min (length x) (length y).
Proof. unfold vaddR. now rewrite map_length, combine_length. Qed.
Lemma vmulR_len' (x y : rvec) : length x = n -> length y = n -> length (vmulR x y) = n.
Proof. intros. rewrite vmulR_len. lia. Qed.
Lemma vaddR_len' (x y : rvec) : length x = n -> length y = n -> length (vaddR x y) = n.
Proof. intros. rewrite vaddR_len. lia. Qed.
Lemma vmulR_nth' (x y : rvec) i : length x = n -> length y = n -> (i < n)%nat -> nth i (vmulR x y) 0 = nth i x 0 * nth i y 0.
Proof. intros. apply vmulR_nth; lia. Qed.
Lemma vaddR_nth' (x y : rvec) i : length x = n -> length y = n -> (i < n)%nat -> nth i (vaddR x y) 0 = nth i x 0 + nth i y 0.
Proof. intros. apply vaddR_nth; lia. Qed.
Lemma grid_len : length (grid_points a b n) = n.
Proof. unfold grid_points. now rewrite map_length, seq_length. Qed.

Variable v_func : R -> R.
Lemma h_square : exists H, h_mat a b n hbar m_e v_func = Ok H /\
  square n H (fun i j => rsum n (fun k => u i k * energy k * u k j) + (if (i =? j)%nat then v_func (nth i (grid_points a b n) 0) else 0)).
Proof.
  destruct t_square as (D & T & _ & E & _ & HT). unfold h_mat. rewrite E. cbn [bind].
  destruct (square_add n _ _ _ _ HT (square_diag n (map v_func (grid_points a b n) : list R_star) ltac:(rewrite map_length; apply grid_len))) as (H & EH & HH).
  exists H. split; [exact EH|]. eapply square_ext; [exact HH|]. intros i j Hi Hj. cbn beta. change (@radd R_star) with Rplus. f_equal. unfold delta. change (@rmul R_star) with Rmult. change (@r0 R_star) with 0. change (@r1 R_star) with 1.
  destruct (i =? j)%nat; [|apply Rmult_0_l]. rewrite (nth_indep _ _ (v_func 0)) by (rewrite map_length, grid_len; auto). rewrite map_nth. apply Rmult_1_l.
Qed.
Variable dst : rvec -> res rvec.
Hypothesis dst_ok : sine_transform n dst.
Lemma dst_u v : length v = n -> exists w, dst v = Ok w /\ length w = n /\ forall k, (k < n)%nat -> sqrt (2 / (INR n + 1)) * nth k w 0 = 2 * rsum n (fun i => u k i * nth i v 0).
Proof.
  intros Lv. destruct (dst_ok v Lv) as (w & E & Lw & H). exists w. split; auto. split; auto. intros k Hk. rewrite H by auto. set (c := sqrt _).
  rewrite (rsum_ext n (fun i => u k i * nth i v 0) (fun i => c * (nth i v 0 * sin (PI * INR (S k) * INR (S i) / (INR n + 1))))).
  - rewrite rsum_scal. match goal with |- _ * (2 * ?A) = 2 * (_ * ?B) => change B with A; generalize A end. intros X. change (@eq R (c * (2 * X)) (2 * (c * X))). ring.
  - intros i Hi. unfold Dvr_Proof.u. fold c. replace (INR (S k) * INR (S i) * PI / (INR n + 1)) with (PI * INR (S k) * INR (S i) / (INR n + 1)) by (unfold Rdiv; ring). ring.
Qed.
Lemma fast_ok v : length v = n -> exists w, fast_matvec a b n hbar m_e v_func dst v = Ok w /\ length w = n /\
  forall i, (i < n)%nat -> nth i w 0 = v_func (nth i (grid_points a b n) 0) * nth i v 0 + rsum n (fun k => u i k * energy k * rsum n (fun j => u k j * nth j v 0)).
Proof.
  intros Lv. unfold fast_matvec. rewrite map_length, grid_len, Lv, Nat.eqb_refl. cbn [negb]. destruct (dst_u v Lv) as (d & E & Ld & Hd). rewrite E. cbn [bind].
  set (t := map _ (fast_t a b n hbar m_e)). assert (Lt : length t = n) by (unfold t, fast_t; now rewrite !map_length, seq_length).
  destruct (dst_u (vmulR t d)) as (w & E2 & Lw & Hw); [apply vmulR_len'; auto|]. rewrite E2. cbn [bind]. eexists. split; [reflexivity|].
  assert (Lg : length (map v_func (grid_points a b n)) = n) by (rewrite map_length; apply grid_len). pose proof (vmulR_len' _ _ Lg Lv) as Lm.
  split; [apply vaddR_len'; auto|]. intros i Hi. rewrite (vaddR_nth' _ _ i Lm Lw Hi), (vmulR_nth' _ _ i Lg Lv Hi). f_equal.
  - rewrite (nth_indep _ _ (v_func 0)) by (rewrite map_length, grid_len; auto). rewrite map_nth. reflexivity.
  - pose proof (Pn n) as P. set (c := sqrt (2 / (INR n + 1))) in *. assert (Cc : c * c = 2 / (INR n + 1)) by (apply sqrt_sqrt; apply Rlt_le, Rdiv_lt_0_compat; lra).
    assert (Pc : c <> 0) by (intros Z; rewrite Z, Rmult_0_l in Cc; assert (0 < 2 / (INR n + 1)) by (apply Rdiv_lt_0_compat; lra); lra).
    apply Rmult_eq_reg_l with c; [|exact Pc]. rewrite Hw by auto. rewrite <- !rsum_scal. apply rsum_ext. intros k Hk. rewrite (vmulR_nth' _ _ k Lt Ld Hk).
    assert (Et : nth k t 0 = energy k / (2 * (INR n + 1))).
    { unfold t, fast_t. rewrite map_map, nth_mapseq by auto. cbn [Nat.add]. reflexivity. }
    apply Rmult_eq_reg_l with c; [|exact Pc]. specialize (Hd k Hk).
    match goal with |- _ * (2 * (_ * (?p * ?q))) = _ * (_ * (_ * _ * ?r)) => change p with (@nth R k t 0); change q with (@nth R k d 0) end. rewrite Et.
    match type of Hd with _ = 2 * ?x => set (X := x) in *; match goal with |- _ = _ * (_ * (_ * _ * ?r)) => change r with X end end. match type of Hd with _ * ?y0 = _ => change y0 with (@nth R k d 0) in Hd end. set (y := @nth R k d 0) in *. clearbody X y.
    transitivity (2 * u i k * (energy k / (2 * (INR n + 1))) * (c * y)); [ring|]. rewrite Hd.
    transitivity ((c * c) * (u i k * energy k * X)); [rewrite Cc; field; lra|ring].
Qed.
Lemma fast_dense v : length v = n -> exists H w, h_mat a b n hbar m_e v_func = Ok H /\ mat_vec H v = Ok w /\ fast_matvec a b n hbar m_e v_func dst v = Ok w.
Proof.
  intros Lv. destruct h_square as (H & E & HH). destruct (fast_ok v Lv) as (w & Ew & Lw & Hw). destruct (mat_vec_ok n _ _ v HH Lv) as (w' & Ew' & Lw' & Hw').
  exists H, w. split; auto. split; auto. rewrite Ew'. f_equal. apply (list_ext_n n); auto. intros i Hi. rewrite Hw' by auto. change (@r0 R_star) with 0. rewrite Hw by auto. change (@rmul R_star) with Rmult.
  rewrite (rsum_ext n (fun k => (_ + _) * nth k v 0) (fun j => rsum n (fun k => (u i k * energy k) * (u k j * nth j v 0)) + (if (i =? j)%nat then v_func (nth i (grid_points a b n) 0) * nth j v 0 else 0))).
  - rewrite rsum_add, rsum_swap, Rplus_comm. f_equal.
    + rewrite (sumn_single R_star n i) by (auto; intros l Hl N; rewrite (proj2 (Nat.eqb_neq i l)) by auto; reflexivity). rewrite Nat.eqb_refl. reflexivity.
    + apply rsum_ext. intros k Hk. apply rsum_scal.
  - intros j Hj. rewrite Rmult_plus_distr_r. f_equal; [|destruct (i =? j)%nat; ring]. rewrite Rmult_comm, <- rsum_scal. apply rsum_ext. intros. ring.
Qed.
End Sine_proof.
