(** C43: the operators of the harmonic oscillator. *)
From Coq Require Import List Arith Bool Lia Reals Lra.
From Verif Require Import Py Alg Cplx ListX NdArray_Model NdArray_Proof Phonon_Model Phonon_Spec Phonon_Proof.
Import ListNotations.
Local Open Scope nat_scope.
Add Ring Cpp : (r_theory C_star).
Local Open Scope star_scope.

(** Creation and annihilation are adjoint; their products are the number operator, and one
    more than it except in the last state. *)
Theorem C43_ladder n : (1 <= n)%nat ->
  entries n (creation_dense n) raise_entry /\ entries n (annihilation_dense n) lower_entry /\ entries n (number_dense n) (diagonal INR)
  /\ (forall i j, (i < n)%nat -> (j < n)%nat -> get (creation_dense n) [i; j] = rconj (get (annihilation_dense n) [j; i]))
  /\ exists CA AC, matmul (creation_dense n) (annihilation_dense n) = Ok CA /\ matmul (annihilation_dense n) (creation_dense n) = Ok AC
     /\ (forall i j, (i < n)%nat -> (j < n)%nat -> get CA [i; j] = get (number_dense n) [i; j])
     /\ (forall i j, (i < n)%nat -> (j < n)%nat -> get AC [i; j] - get CA [i; j] = diagonal (fun i => if (S i <? n)%nat then 1 else - INR (n - 1))%R i j).
Proof.
  intros Hn. pose proof (creation_entries n Hn) as HC. pose proof (annihilation_entries n Hn) as HA. pose proof (diag_entries n INR) as HN. split; [exact HC|]. split; [exact HA|]. split; [exact HN|].
  destruct (mul_entries n _ _ _ _ HC HA) as (CA & E1 & (_ & _ & H1)). destruct (mul_entries n _ _ _ _ HA HC) as (AC & E2 & (_ & _ & H2)).
  destruct HC as (_ & _ & HC). destruct HA as (_ & _ & HA). destruct HN as (_ & _ & HN). split; [intros; rewrite HC, HA by auto; apply raise_conj|].
  exists CA, AC. do 2 (split; [assumption|]). split; intros i j Hi Hj.
  - rewrite H1, raise_lower by auto. symmetry. apply HN; auto.
  - rewrite H1, H2, raise_lower, lower_raise by auto. unfold diagonal. destruct (i =? j)%nat; [|ring]. rewrite <- RtoC_sub. f_equal.
    destruct (Nat.ltb_spec (S i) n); [rewrite S_INR; lra|]. replace (n - 1)%nat with i by lia. lra.
Qed.
Print Assumptions C43_ladder.

Theorem C43_hermitian n omega mass hbar : (1 <= n)%nat ->
  exists X P, coordinate_dense n omega mass hbar = Ok X /\ momentum_dense n omega mass hbar = Ok P /\ hermitian n X /\ hermitian n P.
Proof.
  intros Hn. destruct (coordinate_entries n omega mass hbar Hn) as (X & EX & _). destruct (momentum_entries n omega mass hbar Hn) as (P & EP & _).
  exists X, P. repeat (split; [assumption|]). split; [eapply coordinate_hermitian|eapply momentum_hermitian]; eauto.
Qed.
Print Assumptions C43_hermitian.

(** [p^2 / 2m + m w^2 x^2 / 2] is the Hamiltonian, except in the last state. *)
Theorem C43_energy n omega mass hbar : (1 <= n)%nat -> (0 < omega)%R -> (0 < mass)%R -> (0 < hbar)%R ->
  entries n (hamiltonian_dense n omega hbar) (diagonal (fun i => hbar * omega * (INR i + 1 / 2)))%R /\
  exists X P X2 P2, coordinate_dense n omega mass hbar = Ok X /\ momentum_dense n omega mass hbar = Ok P /\ matmul X X = Ok X2 /\ matmul P P = Ok P2 /\
  forall i j, (i < n)%nat -> (j < n)%nat ->
    let e := RtoC (/ (2 * mass)) * get P2 [i; j] + RtoC (mass * omega ^ 2 / 2) * get X2 [i; j] in
    ((i <> n - 1 \/ i <> j)%nat -> e = get (hamiltonian_dense n omega hbar) [i; j]) /\ ((i = n - 1 /\ i = j)%nat -> e = RtoC (hbar * omega / 2 * INR (n - 1))).
Proof.
  intros Hn Hw Hm Hh. assert (HH : entries n (hamiltonian_dense n omega hbar) (diagonal (fun i => hbar * omega * (INR i + 1 / 2)))%R).
  { eapply entries_ext; [apply diag_entries|]. intros i j Hi Hj. unfold diagonal. destruct (i =? j)%nat; [|reflexivity]. f_equal. lra. }
  split; [exact HH|]. destruct HH as (_ & _ & HH). destruct (energy n omega mass hbar Hn Hw Hm Hh) as (X & P & X2 & P2 & E1 & E2 & E3 & E4 & H).
  exists X, P, X2, P2. do 4 (split; [assumption|]). intros i j Hi Hj. cbn zeta. rewrite H, HH by auto. unfold diagonal. split.
  - intros [N|N]; [|rewrite (proj2 (Nat.eqb_neq i j)) by auto; reflexivity]. destruct (i =? j)%nat; [|reflexivity]. rewrite (proj2 (Nat.ltb_lt (S i) n)) by lia. f_equal. lra.
  - intros [-> <-]. rewrite Nat.eqb_refl, (proj2 (Nat.ltb_ge (S (n - 1)) n)) by lia. reflexivity.
Qed.
Print Assumptions C43_energy.

(** The matrix-free operators that are their own adjoint agree with the dense ones, for
    [matvec] and for [rmatvec]. *)
Theorem C43_matrix_free n omega mass hbar v : (1 <= n)%nat -> length v = n ->
  (exists X w, coordinate_dense n omega mass hbar = Ok X /\ fst (coordinate_free n omega mass hbar) v = Ok w /\ snd (coordinate_free n omega mass hbar) v = Ok w /\ applied n X v w) /\
  (exists P w, momentum_dense n omega mass hbar = Ok P /\ fst (momentum_free n omega mass hbar) v = Ok w /\ snd (momentum_free n omega mass hbar) v = Ok w /\ applied n P v w) /\
  (exists w, fst (number_free n) v = Ok w /\ snd (number_free n) v = Ok w /\ applied n (number_dense n) v w) /\
  (exists w, fst (hamiltonian_free n omega hbar) v = Ok w /\ snd (hamiltonian_free n omega hbar) v = Ok w /\ applied n (hamiltonian_dense n omega hbar) v w).
Proof.
  intros Hn L. split; [|split; [|split]].
  - destruct (coordinate_applied n omega mass hbar v Hn L) as (X & w & E & F & H). exists X, w. repeat (split; [assumption|]). exact H.
  - destruct (momentum_applied n omega mass hbar v Hn L) as (X & w & E & F & H). exists X, w. repeat (split; [assumption|]). exact H.
  - destruct (number_applied n v L) as (w & F & H). exists w. repeat (split; [assumption|]). exact H.
  - destruct (hamiltonian_applied n omega hbar v L) as (w & F & H). exists w. repeat (split; [assumption|]). exact H.
Qed.
Print Assumptions C43_matrix_free.

(** The matrix-free creation operator annihilates, and the other way round. *)
Theorem C43_matrix_free_ladder n v : (1 <= n)%nat -> length v = n ->
  (exists w, fst (creation_free n) v = Ok w /\ snd (creation_free n) v = Ok w /\ applied n (annihilation_dense n) v w) /\
  (exists w, fst (annihilation_free n) v = Ok w /\ snd (annihilation_free n) v = Ok w /\ applied n (creation_dense n) v w).
Proof.
  intros Hn L. split.
  - destruct (lowering_applied n v Hn L) as (w & E & H). exists w. repeat (split; [assumption|]). exact H.
  - destruct (raising_applied n v Hn L) as (w & E & H). exists w. repeat (split; [assumption|]). exact H.
Qed.
Print Assumptions C43_matrix_free_ladder.

(** So it is not the creation operator when there is more than one state. *)
Theorem C43_matrix_free_creation_refuted n : (2 <= n)%nat ->
  exists v, length v = n /\ ~ exists w, fst (creation_free n) v = Ok w /\ applied n (creation_dense n) v w.
Proof.
  intros Hn. exists (map (fun k => delta k O) (seq 0 n)). split; [rewrite map_length, seq_length; auto|]. intros (w & E & (_ & H)).
  assert (L : length (map (fun k : nat => delta k O) (seq 0 n) : list C_star) = n) by (rewrite map_length, seq_length; auto).
  destruct (lowering_ok n _ L) as (w' & E' & _ & H'). cbn [creation_free operator fst] in E. rewrite E' in E. injection E as ->.
  assert (Nk : forall k, (k < n)%nat -> nth k (map (fun k => delta k O) (seq 0 n)) (0 : C_star) = delta k O).
  { intros k Hk. set (h := fun k : nat => delta k O : C_star). rewrite (nth_indep _ _ (h O)) by (rewrite map_length, seq_length; auto). rewrite map_nth, seq_nth by auto. reflexivity. }
  specialize (H 1%nat ltac:(lia)). specialize (H' 1%nat ltac:(lia)). rewrite H' in H.
  destruct (creation_entries n ltac:(lia)) as (_ & _ & HC).
  rewrite (sumn_ext C_star n _ (fun j => raise_entry 1 j * nth j (map (fun k => delta k O) (seq 0 n)) 0)) in H by (intros j Hj; rewrite HC by lia; reflexivity).
  rewrite (raise_sum n 1 (fun j => nth j (map (fun k => delta k O) (seq 0 n)) 0)) in H by lia. rewrite (Nk O) in H by lia.
  assert (Z : (if (2 <? n)%nat then RtoC (sqrt (INR 2)) * nth 2 (map (fun k => delta k O) (seq 0 n)) (0 : C_star) else 0) = 0).
  { destruct (Nat.ltb_spec 2 n); [|reflexivity]. rewrite Nk by auto. unfold delta. cbn [Nat.eqb]. ring. }
  rewrite Z in H. unfold delta in H. cbn [Nat.eqb INR] in H. rewrite sqrt_1 in H. apply (f_equal fst) in H. cbn in H. lra.
Qed.
Print Assumptions C43_matrix_free_creation_refuted.

(** Vectors of another length are refused by all of them. *)
Theorem C43_wrong_length n omega mass hbar v : length v <> n ->
  Forall (fun op : lin_op => fst op v = Raise TypeError /\ snd op v = Raise TypeError)
    [creation_free n; annihilation_free n; coordinate_free n omega mass hbar; momentum_free n omega mass hbar; number_free n; hamiltonian_free n omega hbar].
Proof.
  intros N. assert (C : check_vec n v = Raise TypeError) by (unfold check_vec; now rewrite (proj2 (Nat.eqb_neq _ _) N)).
  repeat constructor; cbn [creation_free annihilation_free coordinate_free momentum_free number_free hamiltonian_free operator fst snd]; unfold raising, lowering; rewrite C; reflexivity.
Qed.
Print Assumptions C43_wrong_length.

(** Without any state the dense ladder operators have one row, the number operator none. *)
Theorem C43_no_states_refuted : shape (creation_dense 0) = [1; 1]%nat /\ shape (number_dense 0) = [0; 0]%nat.
Proof. split; reflexivity. Qed.
Print Assumptions C43_no_states_refuted.

(** ** Examples *)
Example C43_ladder_ex : get (creation_dense 3) [2; 1]%nat = RtoC (sqrt 2) /\ get (creation_dense 3) [1; 2]%nat = 0
  /\ exists CA, matmul (creation_dense 3) (annihilation_dense 3) = Ok CA /\ get CA [2; 2]%nat = RtoC 2.
Proof.
  destruct (C43_ladder 3 ltac:(lia)) as ((_ & _ & H) & _ & (_ & _ & HN) & _ & CA & AC & E & _ & H1 & _).
  split; [rewrite H by lia; unfold raise_entry; cbn [Nat.eqb INR]; do 2 f_equal; lra|]. split; [rewrite H by lia; reflexivity|].
  exists CA. split; [exact E|]. rewrite H1, HN by lia. unfold diagonal. cbn [Nat.eqb INR]. f_equal; try lra.
Qed.
Example C43_commutator_ex : exists CA AC, matmul (creation_dense 3) (annihilation_dense 3) = Ok CA /\ matmul (annihilation_dense 3) (creation_dense 3) = Ok AC
  /\ get AC [1; 1]%nat - get CA [1; 1]%nat = 1 /\ get AC [2; 2]%nat - get CA [2; 2]%nat = RtoC (- 2).
Proof.
  destruct (C43_ladder 3 ltac:(lia)) as (_ & _ & _ & _ & CA & AC & E1 & E2 & _ & H). exists CA, AC. do 2 (split; [assumption|]).
  rewrite !H by lia. unfold diagonal. cbn [Nat.eqb Nat.ltb Nat.leb Nat.sub INR]. split; [reflexivity|f_equal; lra].
Qed.
Example C43_hermitian_ex : exists X, coordinate_dense 3 2 1 1 = Ok X /\ get X [1; 2]%nat = rconj (get X [2; 1]%nat).
Proof. destruct (C43_hermitian 3 2 1 1 ltac:(lia)) as (X & P & E & _ & (_ & H) & _). exists X. split; [exact E|]. apply H; lia. Qed.
Example C43_energy_ex : exists X P X2 P2, coordinate_dense 3 2 1 1 = Ok X /\ momentum_dense 3 2 1 1 = Ok P /\ matmul X X = Ok X2 /\ matmul P P = Ok P2 /\
  RtoC (/ (2 * 1)) * get P2 [1; 1]%nat + RtoC (1 * 2 ^ 2 / 2) * get X2 [1; 1]%nat = RtoC 3 /\
  RtoC (/ (2 * 1)) * get P2 [2; 2]%nat + RtoC (1 * 2 ^ 2 / 2) * get X2 [2; 2]%nat = RtoC 2.
Proof.
  destruct (C43_energy 3 2 1 1) as ((_ & _ & HH) & X & P & X2 & P2 & E1 & E2 & E3 & E4 & H); try lra; [lia|]. exists X, P, X2, P2. do 4 (split; [assumption|]). split.
  - rewrite (proj1 (H 1 1 ltac:(lia) ltac:(lia))%nat ltac:(lia)). rewrite HH by lia. unfold diagonal. cbn [Nat.eqb INR]. f_equal. lra.
  - rewrite (proj2 (H 2 2 ltac:(lia) ltac:(lia))%nat ltac:(lia)). f_equal. cbn [Nat.sub INR]. lra.
Qed.
Example C43_matrix_free_ex : exists w, fst (number_free 3) [1; C_i; RtoC 2] = Ok w /\ nth 2 w 0 = RtoC 4.
Proof.
  destruct (C43_matrix_free 3 1 1 1 [1; C_i; RtoC 2] ltac:(lia) eq_refl) as (_ & _ & (w & E & _ & (_ & H)) & _). exists w. split; [exact E|]. rewrite H by lia.
  destruct (diag_entries 3 INR) as (_ & _ & HN). rewrite (sumn_ext C_star 3 _ (fun j => diagonal INR 2 j * nth j [1; C_i; RtoC 2] 0)) by (intros; unfold number_dense; rewrite HN by lia; reflexivity).
  rewrite (diag_sum 3 INR) by lia. cbn [nth INR]. rewrite <- RtoC_mul. f_equal; try lra.
Qed.
Example C43_matrix_free_ladder_ex : exists w, fst (creation_free 2) [RtoC 5; RtoC 7] = Ok w /\ applied 2 (annihilation_dense 2) [RtoC 5; RtoC 7] w.
Proof. destruct (C43_matrix_free_ladder 2 [RtoC 5; RtoC 7] ltac:(lia) eq_refl) as ((w & E & _ & H) & _). exists w. auto. Qed.
Example C43_matrix_free_creation_refuted_ex : exists v, length v = 2%nat /\ ~ exists w, fst (creation_free 2) v = Ok w /\ applied 2 (creation_dense 2) v w.
Proof. apply C43_matrix_free_creation_refuted. lia. Qed.
Example C43_wrong_length_ex : fst (hamiltonian_free 3 1 1) [1; 1] = Raise TypeError.
Proof. reflexivity. Qed.
