(** Properties C44 and C60: the sine representation and its propagators. *)
From Coq Require Import List Arith Bool Lia Reals Lra.
From Verif Require Import Py Alg Ord Cplx ListX NdArray_Model NdArray_Proof Dvr_Model Dvr_Spec Dvr_Proof Dvr2_Proof Dvr3_Proof.
Import ListNotations.
Local Open Scope R_scope.
Add Ring Cpp : (r_theory C_star).

(** ** C44 *)

(** The basis change is symmetric and is its own inverse. *)
Theorem C44_orthogonal n : exists E, is_matrix (u_mat n) n n /\ (forall i j, (i < n)%nat -> (j < n)%nat -> get (u_mat n) [i; j] = get (u_mat n) [j; i]) /\
  matmul (u_mat n) (u_mat n) = Ok E /\ square n E delta.
Proof.
  destruct (square_mul n _ _ _ _ (u_square n) (u_square n)) as (E & H1 & H2). exists E. pose proof (u_square n) as (W & S & H). split; [split; auto|].
  split; [intros i j Hi Hj; rewrite !H by auto; apply u_sym|]. split; [exact H1|]. eapply square_ext; [exact H2|]. intros i j Hi Hj. apply u_inv; auto.
Qed.
Print Assumptions C44_orthogonal.

(** The transformations of matrices and of vectors undo each other. *)
Theorem C44_inverse_matrices n M : is_matrix M n n ->
  exists F G, fbr2dvr_mat n M = Ok F /\ dvr2fbr_mat n F = Ok M /\ dvr2fbr_mat n M = Ok G /\ fbr2dvr_mat n G = Ok M.
Proof. apply roundtrip. Qed.
Print Assumptions C44_inverse_matrices.
Theorem C44_inverse_vectors n v : length v = n ->
  exists f g, fbr2dvr_vec n v = Ok f /\ dvr2fbr_vec n f = Ok v /\ dvr2fbr_vec n v = Ok g /\ fbr2dvr_vec n g = Ok v.
Proof. apply roundtrip_vec. Qed.
Print Assumptions C44_inverse_vectors.

(** The kinetic energy is symmetric and the sine functions are its eigenvectors. *)
Theorem C44_kinetic a b n hbar m_e : exists D T, dq2_mat a b n = Ok D /\ t_mat a b n hbar m_e = Ok T /\ is_matrix T n n /\
  T = arr_scale (K := R_star) (- hbar ^ 2 / (2 * m_e)) D /\
  (forall i j, (i < n)%nat -> (j < n)%nat -> get T [i; j] = get T [j; i]) /\
  (forall k, (k < n)%nat -> image n T (map (fun i => get (u_mat n) [i; k]) (seq 0 n))
     (map (fun i => rmul (s := R_star) ((hbar * INR (S k) * PI / (b - a)) ^ 2 / (2 * m_e)) (get (u_mat n) [i; k])) (seq 0 n))).
Proof.
  destruct (t_square a b n hbar m_e) as (D & T & ED & ET & Es & (W & S & H)). exists D, T. split; [exact ED|]. split; [exact ET|]. split; [split; auto|]. split; [exact Es|].
  split; [apply (t_symmetric a b n hbar m_e T ET)|]. intros k Hk. pose proof (u_square n) as (_ & _ & Hu). split; [now rewrite map_length, seq_length|]. intros i Hi. rewrite nth_mapseq by auto. cbn [Nat.add]. rewrite Hu by auto.
  etransitivity; [symmetry; exact (t_eigen a b n hbar m_e T k i ET Hk Hi)|]. apply (sumn_ext R_star). intros j Hj. rewrite nth_mapseq by auto. cbn [Nat.add]. rewrite Hu by auto. reflexivity.
Qed.
Print Assumptions C44_kinetic.

(** The derivative matrix is antisymmetric, so clearing its diagonal changes nothing; between
    sine functions its entries are the integrals of [f_j f_k'], for every [j] and [k]. *)
Theorem C44_derivative a b n : exists M, fbr2dvr_mat n (dq_fbr a b n) = Ok M /\ dq_mat a b n = Ok M /\ is_matrix M n n /\
  (forall i j, (i < n)%nat -> (j < n)%nat -> get M [i; j] = ropp (get M [j; i])).
Proof. exact (dq_dvr a b n). Qed.
Print Assumptions C44_derivative.
Theorem C44_derivative_integral a b n i j : a < b -> (i < n)%nat -> (j < n)%nat ->
  (forall x, derivable_pt_lim (box (b - a) a (S j)) x (box' (b - a) a (S j) x)) /\
  exists pr : Newton_integrable (fun x => box (b - a) a (S i) x * box' (b - a) a (S j) x) a b, get (dq_fbr a b n) [i; j] = NewtonInt _ a b pr.
Proof.
  intros H Hi Hj. split; [intros; apply box_derivative|]. destruct (dq_integral a b i j H) as (pr & E). exists pr. destruct (dq_square a b n) as (_ & _ & Hd). rewrite Hd by auto. symmetry. exact E.
Qed.
Print Assumptions C44_derivative_integral.

(** The representation functions vanish at all grid points but their own, so a vector is
    read off, up to one factor, from the function it stands for. *)
Theorem C44_grid a b n i k : a < b -> (i < n)%nat -> (k < n)%nat ->
  dvr_func a b n k (nth i (grid_points a b n) 0) = Ok (if (i =? k)%nat then sqrt ((INR n + 1) / (b - a)) else 0).
Proof. intros. apply dvr_func_at; auto. Qed.
Print Assumptions C44_grid.
Theorem C44_interpolation a b n v i : a < b -> length v = n -> (i < n)%nat ->
  dvr2cont a b n v (nth i (grid_points a b n) 0) = Ok (sqrt ((INR n + 1) / (b - a)) * nth i v 0).
Proof. intros. apply dvr2cont_at; auto. Qed.
Print Assumptions C44_interpolation.

(** The fast product is the dense one. *)
Theorem C44_fast a b n hbar m_e v_func dst v : sine_transform n dst -> length v = n ->
  exists H w, h_mat a b n hbar m_e v_func = Ok H /\ mat_vec H v = Ok w /\ fast_matvec a b n hbar m_e v_func dst v = Ok w.
Proof. intros. apply fast_dense; auto. Qed.
Print Assumptions C44_fast.
Theorem C44_fast_wrong_length a b n hbar m_e v_func dst v : length v <> n ->
  exists H, h_mat a b n hbar m_e v_func = Ok H /\ mat_vec H v = Raise ValueError /\ fast_matvec a b n hbar m_e v_func dst v = Raise ValueError.
Proof.
  intros N. destruct (h_square a b n hbar m_e v_func) as (H & E & HH). exists H. split; auto. split; [apply (mat_vec_fail n _ _ v HH N)|].
  unfold fast_matvec. rewrite map_length, grid_len, (proj2 (Nat.eqb_neq _ _) N). reflexivity.
Qed.
Print Assumptions C44_fast_wrong_length.

(** ** C60 *)
Local Open Scope star_scope.
(** For any eigenvalue decomposition of the kinetic energy: [p1 p1 = p2], all three are
    unitary, [p3] multiplies the eigenvectors by phases, and steps add up. *)
Theorem C60_trotter a b n hbar m_e v_func eigh tau tau' T l V :
  t_mat a b n hbar m_e = Ok T -> eigh T = (l, V) -> eigen_decomposition n T l V ->
  exists p1 p2 p3 q1 q2 q3 r1 r2 r3,
    propagator a b n hbar m_e v_func eigh tau = Ok (p1, p2, p3) /\ matmul p1 p1 = Ok p2 /\
    square n p2 (fun i j => delta i j * Cexp (- C_i * RtoC (hbar * tau * v_func (nth i (grid_points a b n) 0))%R)) /\
    unitary n p1 /\ unitary n p2 /\ unitary n p3 /\
    (forall i k, (i < n)%nat -> (k < n)%nat ->
       sumn n (fun j => get p3 [i; j] * RtoC (get V [j; k])) = Cexp (- C_i * RtoC (hbar * tau * nth k l 0)%R) * RtoC (get V [i; k])) /\
    propagator a b n hbar m_e v_func eigh tau' = Ok (q1, q2, q3) /\ propagator a b n hbar m_e v_func eigh (tau + tau')%R = Ok (r1, r2, r3) /\
    matmul p2 q2 = Ok r2 /\ matmul p3 q3 = Ok r3.
Proof.
  intros ET EV HV. destruct (eigen_facts n T l V HV) as (Vc & Vr).
  assert (Vreal : forall i k : nat, rconj (RtoC (get V [i; k])) = RtoC (get V [i; k])) by (intros; apply RtoC_conj).
  destruct (propagator_ok a b n hbar m_e v_func eigh tau T l V ET EV HV) as (p1 & p2 & p3 & Ep & H1 & H2 & H3).
  destruct (propagator_ok a b n hbar m_e v_func eigh tau' T l V ET EV HV) as (q1 & q2 & q3 & Eq & _ & G2 & G3).
  destruct (propagator_ok a b n hbar m_e v_func eigh (tau + tau')%R T l V ET EV HV) as (s1 & s2 & s3 & Es & _ & F2 & F3).
  exists p1, p2, p3, q1, q2, q3, s1, s2, s3. split; [exact Ep|].
  assert (Dm : forall (f g : nat -> C_star) i j, (i < n)%nat -> (j < n)%nat -> sumn n (fun k => delta i k * f i * (delta k j * g k)) = delta i j * (f i * g i)).
  { intros f g i j Hi Hj. rewrite (sumn_ext C_star n _ (fun k => delta i k * (f i * (delta k j * g k)))) by (intros; ring).
    rewrite (delta_sum_l n i (fun k => f i * (delta k j * g k))) by auto. ring. }
  assert (Un : forall p (x : nat -> R), square n p (fun i j => delta i j * ph (x i)) -> unitary n p).
  { intros p x (_ & _ & Hp) i j Hi Hj. rewrite (sumn_ext C_star n _ (fun k => delta i k * (rconj (ph (x k)) * (delta k j * ph (x k))))).
    - rewrite (delta_sum_l n i (fun k => rconj (ph (x k)) * (delta k j * ph (x k)))) by auto. transitivity (delta i j * (rconj (ph (x i)) * ph (x i))); [ring|]. rewrite ph_conj. ring.
    - intros k Hk. rewrite !Hp, rconj_mul by auto. unfold delta. rewrite (Nat.eqb_sym k i). destruct (i =? k)%nat; rewrite ?rconj_1, ?rconj_0; ring. }
  split.
  { destruct (square_mul n _ _ _ _ H1 H1) as (P & EP & HP). rewrite EP. f_equal. set (g := (fun i => ph (hbar * tau * (v_func (nth i (grid_points a b n) 0) / 2))%R) : nat -> C_star).
    apply (square_eq n _ _ (fun i j => delta i j * (g i * g i))); [eapply square_ext; [exact HP|]; intros i j Hi Hj; exact (Dm g g i j Hi Hj)|]. unfold g. eapply square_ext; [exact H2|].
    intros i j Hi Hj. cbn beta. rewrite ph_add. do 2 f_equal. field. }
  split; [exact H2|]. split; [eapply Un; exact H1|]. split; [eapply Un; exact H2|]. split.
  { intros i j Hi Hj. destruct H3 as (_ & _ & H3). rewrite <- (func_one n (fun i k => RtoC (get V [i; k])) Vr i j Hi Hj).
    rewrite (sumn_ext C_star n _ (fun k => func n (fun i k => RtoC (get V [i; k])) (fun k => rconj (ph (hbar * tau * nth k l 0)%R)) i k * func n (fun i k => RtoC (get V [i; k])) (fun k => ph (hbar * tau * nth k l 0)%R) k j)).
    - rewrite (func_mul n (fun i k => RtoC (get V [i; k])) Vc) by auto. unfold func. apply sumn_ext. intros k Hk. rewrite ph_conj. reflexivity.
    - intros k Hk. rewrite !H3 by auto. rewrite (func_conj n (fun i k => RtoC (get V [i; k])) Vreal). reflexivity. }
  split. { intros i k Hi Hk. destruct H3 as (_ & _ & H3). etransitivity; [|exact (func_vec n (fun i k => RtoC (get V [i; k])) Vc (fun k => ph (hbar * tau * nth k l 0)%R) i k Hi Hk)]. apply sumn_ext. intros j Hj. rewrite H3 by auto. reflexivity. }
  split; [exact Eq|]. split; [exact Es|]. split.
  { destruct (square_mul n _ _ _ _ H2 G2) as (P & EP & HP). rewrite EP. f_equal. set (g := (fun i => ph (hbar * tau * v_func (nth i (grid_points a b n) 0))%R) : nat -> C_star). set (g' := (fun i => ph (hbar * tau' * v_func (nth i (grid_points a b n) 0))%R) : nat -> C_star).
    apply (square_eq n _ _ (fun i j => delta i j * (g i * g' i))); [eapply square_ext; [exact HP|]; intros i j Hi Hj; exact (Dm g g' i j Hi Hj)|]. unfold g, g'. eapply square_ext; [exact F2|].
    intros i j Hi Hj. cbn beta. rewrite ph_add. do 2 f_equal. ring. }
  { destruct (square_mul n _ _ _ _ H3 G3) as (P & EP & HP). rewrite EP. f_equal. eapply square_eq; [exact HP|]. eapply square_ext; [exact F3|]. intros i j Hi Hj. cbn beta.
    rewrite (func_mul n (fun i k => RtoC (get V [i; k])) Vc) by auto. unfold func. apply sumn_ext. intros k Hk. rewrite ph_add. do 3 f_equal. ring. }
Qed.
Print Assumptions C60_trotter.

(** The phases contain [hbar tau V]; they are not those of [exp (-i tau V / hbar)] unless hbar is 1. *)
Theorem C60_phase_refuted a b n hbar m_e v_func eigh T l V i :
  t_mat a b n hbar m_e = Ok T -> eigh T = (l, V) -> eigen_decomposition n T l V ->
  (0 < hbar)%R -> hbar <> 1%R -> (i < n)%nat -> v_func (nth i (grid_points a b n) 0%R) <> 0%R ->
  exists tau p1 p2 p3, propagator a b n hbar m_e v_func eigh tau = Ok (p1, p2, p3) /\
    get p2 [i; i] <> Cexp (- C_i * RtoC (tau * v_func (nth i (grid_points a b n) 0) / hbar)%R).
Proof.
  intros ET EV HV Ph Nh Hi Nv. set (x := v_func _) in *. set (tau := (PI / ((hbar - / hbar) * x))%R). exists tau.
  destruct (propagator_ok a b n hbar m_e v_func eigh tau T l V ET EV HV) as (p1 & p2 & p3 & Ep & _ & (_ & _ & H2) & _). exists p1, p2, p3. split; [exact Ep|]. rewrite H2 by auto. fold x.
  unfold delta. rewrite Nat.eqb_refl. change (Cexp (- C_i * RtoC (tau * x / hbar)%R)) with (ph (tau * x / hbar)%R).
  assert (N1 : (hbar - / hbar <> 0)%R).
  { intros Z. apply Nh. assert (hbar * hbar = 1)%R by (apply Rmult_eq_reg_r with (/ hbar)%R; [|apply Rinv_neq_0_compat; lra]; rewrite Rmult_assoc, Rinv_r by lra; lra). assert (X : ((hbar - 1) * (hbar + 1) = 0)%R) by lra. apply Rmult_integral in X as [X|X]; lra. }
  replace (hbar * tau * x)%R with (PI + tau * x / hbar)%R.
  - rewrite <- ph_add. intros E. apply (f_equal (fun z => rconj (ph (tau * x / hbar)%R) * z)) in E. rewrite ph_conj in E.
    replace (rconj (ph (tau * x / hbar)%R) * (1 * (ph PI * ph (tau * x / hbar)%R))) with (ph PI * (rconj (ph (tau * x / hbar)%R) * ph (tau * x / hbar)%R)) in E by ring. rewrite ph_conj in E.
    apply (f_equal fst) in E. unfold ph in E. cbn in E. replace (- (0) * PI - - (1) * 0)%R with 0%R in E by ring. replace (- (0) * 0 + - (1) * PI)%R with (- PI)%R in E by ring.
    rewrite exp_0, cos_neg, cos_PI in E. lra.
  - unfold tau. field. repeat split; try lra. intros Z. apply N1. apply Rmult_eq_reg_r with hbar; [|lra]. rewrite Rmult_minus_distr_r, Rinv_l by lra. lra.
Qed.
Print Assumptions C60_phase_refuted.

(** ** Examples *)
Local Close Scope star_scope.
Local Open Scope R_scope.
Example C44_orthogonal_ex : exists E, matmul (u_mat 3) (u_mat 3) = Ok E /\ get E [1; 1]%nat = r1 /\ get E [0; 2]%nat = r0.
Proof. destruct (C44_orthogonal 3) as (E & _ & _ & H & (_ & _ & He)). exists E. split; [exact H|]. split; rewrite He by lia; reflexivity. Qed.
Definition ex_m : arr R_star := build (K := R_star) [2; 2]%nat (fun x => INR (nth 0 x O + 3 * nth 1 x O)).
Example C44_inverse_matrices_ex : exists F, fbr2dvr_mat 2 ex_m = Ok F /\ dvr2fbr_mat 2 F = Ok ex_m.
Proof. destruct (C44_inverse_matrices 2 ex_m (conj (wf_build _ _ _) eq_refl)) as (F & _ & E1 & E2 & _). exists F. auto. Qed.
Example C44_inverse_vectors_ex : exists f, fbr2dvr_vec 3 [1; 0; 5] = Ok f /\ dvr2fbr_vec 3 f = Ok [1; 0; 5].
Proof. destruct (C44_inverse_vectors 3 [1; 0; 5] eq_refl) as (f & _ & E1 & E2 & _). exists f. auto. Qed.
Example C44_kinetic_ex : exists T, t_mat 0 PI 3 1 1 = Ok T /\ image 3 T (map (fun i => get (u_mat 3) [i; 1%nat]) (seq 0 3)) (map (fun i => rmul (s := R_star) 2 (get (u_mat 3) [i; 1%nat])) (seq 0 3)).
Proof.
  destruct (C44_kinetic 0 PI 3 1 1) as (D & T & _ & E & _ & _ & _ & H). exists T. split; [exact E|]. specialize (H 1%nat ltac:(lia)).
  replace ((1 * INR 2 * PI / (PI - 0)) ^ 2 / (2 * 1)) with 2 in H; [exact H|]. cbn [INR]. rewrite Rminus_0_r. field. pose proof PI_RGT_0. lra.
Qed.
Example C44_derivative_ex : exists M, dq_mat 0 1 4 = Ok M /\ get M [1; 1]%nat = ropp (get M [1; 1]%nat) /\ get M [0; 3]%nat = ropp (get M [3; 0]%nat).
Proof. destruct (C44_derivative 0 1 4) as (M & _ & E & _ & H). exists M. split; [exact E|]. split; apply H; lia. Qed.
Example C44_derivative_integral_ex : exists pr : Newton_integrable (fun x => box (2 - 0) 0 1 x * box' (2 - 0) 0 2 x) 0 2, NewtonInt _ 0 2 pr = - (4 / 3).
Proof.
  destruct (C44_derivative_integral 0 2 2 0 1) as (_ & pr & E); [lra|lia|lia|]. exists pr. rewrite <- E. destruct (dq_square 0 2 2) as (_ & _ & H). rewrite H by lia. unfold dq, len. cbn. field.
Qed.
Example C44_grid_ex : dvr_func 0 1 3 1 (nth 1 (grid_points 0 1 3) 0) = Ok (sqrt 4) /\ dvr_func 0 1 3 1 (nth 2 (grid_points 0 1 3) 0) = Ok 0.
Proof. rewrite !C44_grid by (try lra; lia). cbn [Nat.eqb]. split; [|reflexivity]. do 2 f_equal. cbn [INR]. field. Qed.
Example C44_interpolation_ex : dvr2cont 0 1 3 [7; 8; 9] (nth 2 (grid_points 0 1 3) 0) = Ok (sqrt ((INR 3 + 1) / (1 - 0)) * 9).
Proof. rewrite C44_interpolation by (try lra; try lia; reflexivity). reflexivity. Qed.
(** The transform itself, and the sine functions as eigenvectors of the kinetic energy *)
Definition dst_plain (n : nat) (v : list R) : res (list R) :=
  Ok (map (fun k => 2 * sumn (K := R_star) n (fun i => nth i v 0 * sin (PI * INR (S k) * INR (S i) / (INR n + 1)))) (seq 0 n)).
Lemma dst_plain_ok n : sine_transform n (dst_plain n).
Proof. intros v L. eexists. split; [reflexivity|]. split; [now rewrite map_length, seq_length|]. intros k Hk. rewrite nth_mapseq by auto. reflexivity. Qed.
Example C44_fast_ex : exists H w, h_mat 0 1 3 1 1 (fun x => x ^ 2) = Ok H /\ mat_vec H [1; 2; 3] = Ok w /\ fast_matvec 0 1 3 1 1 (fun x => x ^ 2) (dst_plain 3) [1; 2; 3] = Ok w.
Proof. apply C44_fast; [apply dst_plain_ok|reflexivity]. Qed.
Example C44_fast_wrong_length_ex : fast_matvec 0 1 3 1 1 (fun x => x ^ 2) (dst_plain 3) [1; 2] = Raise ValueError.
Proof. destruct (C44_fast_wrong_length 0 1 3 1 1 (fun x => x ^ 2) (dst_plain 3) [1; 2] ltac:(discriminate)) as (_ & _ & _ & E). exact E. Qed.
Lemma sine_eigen a b n hbar m_e T : t_mat a b n hbar m_e = Ok T -> eigen_decomposition n T (map (energy a b hbar m_e) (seq 0 n)) (u_mat n).
Proof.
  intros E. pose proof (u_square n) as (W & S & H). split; [split; auto|]. split; [now rewrite map_length, seq_length|]. split; [|split].
  - intros i k Hi Hk. rewrite nth_mapseq, H by auto. etransitivity; [|exact (t_eigen a b n hbar m_e T k i E Hk Hi)]. apply (sumn_ext R_star). intros j Hj. rewrite H by auto. reflexivity.
  - intros k l Hk Hl. rewrite <- (u_inv n k l Hk Hl). apply sumn_ext. intros i Hi. rewrite !H, (u_sym n i k) by auto. reflexivity.
  - intros i j Hi Hj. rewrite <- (u_inv n i j Hi Hj). apply sumn_ext. intros k Hk. rewrite !H, (u_sym n j k) by auto. reflexivity.
Qed.
Example C60_trotter_ex : exists p1 p2 p3, propagator 0 1 3 2 1 (fun x => x ^ 2) (fun _ => (map (energy 0 1 2 1) (seq 0 3), u_mat 3)) 0.1 = Ok (p1, p2, p3) /\ matmul p1 p1 = Ok p2 /\ unitary 3 p3.
Proof.
  destruct (C44_kinetic 0 1 3 2 1) as (_ & T & _ & ET & _).
  destruct (C60_trotter 0 1 3 2 1 (fun x => x ^ 2) (fun _ => (map (energy 0 1 2 1) (seq 0 3), u_mat 3)) 0.1 0.1 T _ _ ET eq_refl (sine_eigen _ _ _ _ _ _ ET)) as (p1 & p2 & p3 & q1 & q2 & q3 & s1 & s2 & s3 & E & E1 & _ & _ & _ & E3 & _).
  exists p1, p2, p3. auto.
Qed.
Example C60_phase_refuted_ex : exists tau p1 p2 p3, propagator 0 1 3 2 1 (fun _ => 1) (fun _ => (map (energy 0 1 2 1) (seq 0 3), u_mat 3)) tau = Ok (p1, p2, p3) /\
  get p2 [0; 0]%nat <> Cexp (rmul (ropp C_i) (RtoC (tau * 1 / 2))).
Proof.
  destruct (C44_kinetic 0 1 3 2 1) as (_ & T & _ & ET & _).
  apply (C60_phase_refuted 0 1 3 2 1 (fun _ => 1) (fun _ => (map (energy 0 1 2 1) (seq 0 3), u_mat 3)) T _ _ O ET eq_refl (sine_eigen _ _ _ _ _ _ ET)); try lra. lia.
Qed.
