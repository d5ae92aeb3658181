(** Proofs about the operators of the oscillator. *)
From Coq Require Import List Arith Bool Lia Reals Lra.
From Verif Require Import Py Alg Cplx ListX NdArray_Model NdArray_Proof Phonon_Model Phonon_Spec.
Import ListNotations.
Local Open Scope nat_scope.
Add Ring Cph : (r_theory C_star).
Local Open Scope star_scope.

Lemma get2 n m (f : list nat -> C_star) i j : (i < n)%nat -> (j < m)%nat -> get (build [n; m] f) [i; j] = f [i; j].
Proof. intros. apply get_build. apply in_range2; auto. Qed.

Lemma nth_sq a m k : (k < m)%nat -> nth k (map rsq (seq a m)) 0 = RtoC (sqrt (INR (a + k))).
Proof. intros H. rewrite (nth_indep _ _ (rsq 0)) by (rewrite map_length, seq_length; auto). rewrite map_nth, seq_nth by auto. reflexivity. Qed.
Lemma RtoC_0 : RtoC 0 = 0.
Proof. reflexivity. Qed.

Lemma creation_entries n : (1 <= n)%nat -> entries n (creation_dense n) raise_entry.
Proof.
  intros Hn. unfold creation_dense, diag_below. rewrite map_length, seq_length. replace (S (n - 1)) with n by lia.
  split; [apply wf_build|]. split; [reflexivity|]. intros i j Hi Hj. rewrite get2 by auto. cbn [nth]. unfold raise_entry, delta.
  destruct (Nat.eqb_spec i (S j)) as [->|E]; [|ring]. rewrite nth_sq by lia. cbn [Nat.add]. ring.
Qed.
Lemma annihilation_entries n : (1 <= n)%nat -> entries n (annihilation_dense n) lower_entry.
Proof.
  intros Hn. unfold annihilation_dense, diag_above. rewrite map_length, seq_length. replace (S (n - 1)) with n by lia.
  split; [apply wf_build|]. split; [reflexivity|]. intros i j Hi Hj. rewrite get2 by auto. cbn [nth]. unfold lower_entry, delta.
  destruct (Nat.eqb_spec (S i) j) as [E|E]; [|ring]. rewrite nth_sq by lia. subst j. cbn [Nat.add]. ring.
Qed.
Lemma diag_entries n (f : nat -> R) : entries n (diag_at (map (fun k => RtoC (f k)) (seq 0 n))) (diagonal f).
Proof.
  unfold diag_at. rewrite map_length, seq_length. split; [apply wf_build|]. split; [reflexivity|]. intros i j Hi Hj. rewrite get2 by auto. cbn [nth]. unfold diagonal, delta.
  destruct (Nat.eqb_spec i j) as [E|E]; [|ring]. set (h := fun k => RtoC (f k)). rewrite (nth_indep _ _ (h O)) by (rewrite map_length, seq_length; auto). rewrite map_nth, seq_nth by auto. unfold h. cbn [Nat.add]. ring.
Qed.

Lemma add_entries n M N f g : entries n M f -> entries n N g -> exists P, arr_add M N = Ok P /\ entries n P (fun i j => f i j + g i j).
Proof.
  intros (W & E & H) (W' & E' & H'). eexists. split; [apply arr_add_ok; auto; congruence|]. split; [apply wf_build|]. rewrite E. split; [reflexivity|].
  intros i j Hi Hj. rewrite get2 by auto. rewrite H, H' by auto. reflexivity.
Qed.
Lemma scale_entries n M f (c : C_star) : entries n M f -> entries n (arr_scale c M) (fun i j => c * f i j).
Proof. intros (W & E & H). split; [apply wf_scale; auto|]. split; [exact E|]. intros. rewrite get_scale, H by auto. reflexivity. Qed.
Lemma mul_entries n M N f g : entries n M f -> entries n N g -> exists P, matmul M N = Ok P /\ entries n P (fun i j => sumn n (fun k => f i k * g k j)).
Proof.
  intros (W & E & H) (W' & E' & H'). rewrite (matmul_ok C_star M N n n n E E'). eexists. split; [reflexivity|]. split; [apply wf_build|]. split; [reflexivity|].
  intros i j Hi Hj. rewrite get2 by auto. cbn [nth]. apply sumn_ext. intros k Hk. rewrite H, H' by auto. reflexivity.
Qed.
Lemma entries_ext n M f g : entries n M f -> (forall i j, (i < n)%nat -> (j < n)%nat -> f i j = g i j) -> entries n M g.
Proof. intros (W & E & H) X. split; auto. split; auto. intros. rewrite H by auto. auto. Qed.

Lemma sqrt_sq n : RtoC (sqrt (INR n)) * RtoC (sqrt (INR n)) = RtoC (INR n).
Proof. rewrite <- RtoC_mul, sqrt_sqrt by apply pos_INR. reflexivity. Qed.

Lemma raise_lower n i j : (i < n)%nat -> (j < n)%nat -> sumn n (fun k => raise_entry i k * lower_entry k j) = diagonal INR i j.
Proof.
  intros Hi Hj. unfold raise_entry, lower_entry, diagonal. destruct i as [|i].
  - rewrite (sumn_zero C_star) by (intros; cbn [Nat.eqb]; ring). destruct (0 =? j)%nat; reflexivity.
  - rewrite (sumn_single C_star n i) by (try lia; intros k Hk Ne; rewrite (proj2 (Nat.eqb_neq (S i) (S k))) by lia; ring).
    rewrite Nat.eqb_refl. destruct (Nat.eqb_spec (S i) j) as [<-|E]; [apply sqrt_sq|ring].
Qed.
Lemma lower_raise n i j : (i < n)%nat -> (j < n)%nat -> sumn n (fun k => lower_entry i k * raise_entry k j) = diagonal (fun i => if (S i <? n)%nat then INR (S i) else 0%R) i j.
Proof.
  intros Hi Hj. unfold raise_entry, lower_entry, diagonal. destruct (Nat.ltb_spec (S i) n).
  - rewrite (sumn_single C_star n (S i)) by (try lia; intros k Hk Ne; rewrite (proj2 (Nat.eqb_neq (S i) k)) by lia; ring).
    rewrite Nat.eqb_refl. cbn [Nat.eqb]. destruct (Nat.eqb_spec i j) as [<-|E]; [apply sqrt_sq|ring].
  - rewrite (sumn_zero C_star) by (intros k Hk; rewrite (proj2 (Nat.eqb_neq (S i) k)) by lia; ring). destruct (i =? j)%nat; reflexivity.
Qed.
Lemma raise_conj i j : raise_entry i j = rconj (lower_entry j i).
Proof. unfold raise_entry, lower_entry. destruct (Nat.eqb_spec i (S j)) as [->|E]; [rewrite Nat.eqb_refl, RtoC_conj; reflexivity|]. rewrite (proj2 (Nat.eqb_neq (S j) i)) by auto. now rewrite rconj_0. Qed.
Lemma lower_conj i j : lower_entry i j = rconj (raise_entry j i).
Proof. rewrite raise_conj, rconj_invol. reflexivity. Qed.

Lemma coordinate_entries n w m hb : (1 <= n)%nat -> exists X, coordinate_dense n w m hb = Ok X /\ entries n X (fun i j => x_coeff w m hb * (raise_entry i j + lower_entry i j)).
Proof.
  intros Hn. unfold coordinate_dense. destruct (add_entries n _ _ _ _ (creation_entries n Hn) (annihilation_entries n Hn)) as (P & E & HP). rewrite E. cbn [bind].
  eexists. split; [reflexivity|]. apply scale_entries. exact HP.
Qed.
Lemma momentum_entries n w m hb : (1 <= n)%nat -> exists X, momentum_dense n w m hb = Ok X /\ entries n X (fun i j => p_coeff w m hb * (raise_entry i j - lower_entry i j)).
Proof.
  intros Hn. unfold momentum_dense, arr_sub. destruct (add_entries n _ _ _ _ (creation_entries n Hn) (scale_entries n _ _ (- (1)) (annihilation_entries n Hn))) as (P & E & HP). rewrite E. cbn [bind].
  eexists. split; [reflexivity|]. eapply entries_ext; [apply scale_entries; exact HP|]. intros. cbn beta. ring.
Qed.

Lemma conj_i' : rconj C_i = - C_i.
Proof. apply Ceq; cbn; lra. Qed.
Lemma coordinate_hermitian n w m hb X : (1 <= n)%nat -> coordinate_dense n w m hb = Ok X -> hermitian n X.
Proof.
  intros Hn E. destruct (coordinate_entries n w m hb Hn) as (Y & E' & (W & S & H)). rewrite E in E'. injection E' as <-. split; auto. intros i j Hi Hj.
  rewrite !H by auto. unfold x_coeff. rewrite rconj_mul, RtoC_conj, rconj_add, <- raise_conj, <- lower_conj. ring.
Qed.
Lemma momentum_hermitian n w m hb X : (1 <= n)%nat -> momentum_dense n w m hb = Ok X -> hermitian n X.
Proof.
  intros Hn E. destruct (momentum_entries n w m hb Hn) as (Y & E' & (W & S & H)). rewrite E in E'. injection E' as <-. split; auto. intros i j Hi Hj.
  rewrite !H by auto. unfold p_coeff. rewrite !rconj_mul, RtoC_conj, conj_i'. replace (rconj (raise_entry j i - lower_entry j i)) with (lower_entry i j - raise_entry i j); [ring|].
  rewrite (lower_conj i j), (raise_conj i j). apply Ceq; cbn; ring.
Qed.

(** ** p^2 / 2m + m w^2 x^2 / 2 *)
Lemma sum_square n c (f g : nat -> nat -> C_star) s i j :
  sumn n (fun k => (c * (f i k + s * g i k)) * (c * (f k j + s * g k j)))
  = c * c * (sumn n (fun k => f i k * f k j) + s * (sumn n (fun k => f i k * g k j) + sumn n (fun k => g i k * f k j)) + s * s * sumn n (fun k => g i k * g k j)).
Proof.
  rewrite <- !(sumn_scal_l C_star), <- !(sumn_add C_star), <- !(sumn_scal_l C_star), <- !(sumn_add C_star), <- !(sumn_scal_l C_star). apply sumn_ext. intros k Hk. ring.
Qed.
Lemma energy n w m hb : (1 <= n)%nat -> (0 < w)%R -> (0 < m)%R -> (0 < hb)%R ->
  exists X P X2 P2, coordinate_dense n w m hb = Ok X /\ momentum_dense n w m hb = Ok P /\ matmul X X = Ok X2 /\ matmul P P = Ok P2 /\
  forall i j, (i < n)%nat -> (j < n)%nat ->
    RtoC (/ (2 * m)) * get P2 [i; j] + RtoC (m * w ^ 2 / 2) * get X2 [i; j]
    = diagonal (fun i => if (S i <? n)%nat then hb * w * (0.5 + INR i) else hb * w / 2 * INR i)%R i j.
Proof.
  intros Hn Hw Hm Hh. destruct (coordinate_entries n w m hb Hn) as (X & EX & HX). destruct (momentum_entries n w m hb Hn) as (P & EP & HP).
  destruct (mul_entries n _ _ _ _ HX HX) as (X2 & EX2 & (_ & _ & HX2)). destruct (mul_entries n _ _ _ _ HP HP) as (P2 & EP2 & (_ & _ & HP2)).
  exists X, P, X2, P2. do 4 (split; [assumption|]). intros i j Hi Hj. rewrite HX2, HP2 by auto.
  assert (Q1 : x_coeff w m hb * x_coeff w m hb = RtoC (hb / m / w / 2)).
  { unfold x_coeff. rewrite <- RtoC_mul, sqrt_sqrt; [reflexivity|]. apply Rlt_le. repeat apply Rdiv_lt_0_compat; auto; lra. }
  assert (Q2 : p_coeff w m hb * p_coeff w m hb = RtoC (- (hb * m * w / 2))).
  { unfold p_coeff. transitivity (C_i * C_i * (RtoC (sqrt (hb * m * w / 2)) * RtoC (sqrt (hb * m * w / 2)))); [ring|]. rewrite C_i2, <- RtoC_mul, sqrt_sqrt, RtoC_opp; [ring|].
    apply Rlt_le. apply Rdiv_lt_0_compat; [repeat apply Rmult_lt_0_compat; auto|lra]. }
  rewrite (sumn_ext C_star n (fun k => p_coeff w m hb * (raise_entry i k - lower_entry i k) * (p_coeff w m hb * (raise_entry k j - lower_entry k j)))
     (fun k => (p_coeff w m hb * (raise_entry i k + - (1) * lower_entry i k)) * (p_coeff w m hb * (raise_entry k j + - (1) * lower_entry k j)))) by (intros; ring).
  rewrite (sumn_ext C_star n (fun k => x_coeff w m hb * (raise_entry i k + lower_entry i k) * (x_coeff w m hb * (raise_entry k j + lower_entry k j)))
     (fun k => (x_coeff w m hb * (raise_entry i k + 1 * lower_entry i k)) * (x_coeff w m hb * (raise_entry k j + 1 * lower_entry k j)))) by (intros; ring).
  rewrite !sum_square, Q1, Q2, raise_lower, lower_raise by auto. set (A := sumn n (fun k => raise_entry i k * raise_entry k j)). set (B := sumn n (fun k => lower_entry i k * lower_entry k j)).
  assert (C1 : RtoC (/ (2 * m)) * RtoC (- (hb * m * w / 2)) = - RtoC (hb * w / 4)) by (rewrite <- RtoC_mul, <- RtoC_opp; f_equal; field; lra).
  assert (C2 : RtoC (m * w ^ 2 / 2) * RtoC (hb / m / w / 2) = RtoC (hb * w / 4)) by (rewrite <- RtoC_mul; f_equal; field; lra).
  transitivity ((RtoC (/ (2 * m)) * RtoC (- (hb * m * w / 2))) * (A - (diagonal INR i j + diagonal (fun i => if (S i <? n)%nat then INR (S i) else 0%R) i j) + B)
    + (RtoC (m * w ^ 2 / 2) * RtoC (hb / m / w / 2)) * (A + (diagonal INR i j + diagonal (fun i => if (S i <? n)%nat then INR (S i) else 0%R) i j) + B)); [ring|].
  rewrite C1, C2. transitivity (RtoC (hb * w / 4) * (1 + 1) * (diagonal INR i j + diagonal (fun i => if (S i <? n)%nat then INR (S i) else 0%R) i j)); [ring|].
  unfold diagonal. destruct (i =? j)%nat; [|ring]. replace (1 + 1 : C_star) with (RtoC 2) by (apply Ceq; cbn; lra).
  destruct (S i <? n)%nat; rewrite <- RtoC_add, <- !RtoC_mul; f_equal; rewrite ?S_INR; replace 0.5%R with (/ 2)%R by lra; field.
Qed.

(** ** Matrix free *)
Lemma vmul_length (a b : vec) : length (vmul a b) = min (length a) (length b).
Proof. revert b. induction a as [|x a IH]; intros [|y b]; cbn; auto. Qed.
Lemma vmul_nth (a b : vec) i : (i < length a)%nat -> (i < length b)%nat -> nth i (vmul a b) 0 = nth i a 0 * nth i b 0.
Proof. revert b i. induction a as [|x a IH]; intros [|y b] [|i] H1 H2; cbn in *; try lia; auto. apply IH; lia. Qed.
Lemma vadd_length (a b : vec) : length (vadd a b) = min (length a) (length b).
Proof. revert b. induction a as [|x a IH]; intros [|y b]; cbn; auto. Qed.
Lemma vadd_nth (a b : vec) i : (i < length a)%nat -> (i < length b)%nat -> nth i (vadd a b) 0 = nth i a 0 + nth i b 0.
Proof. revert b i. induction a as [|x a IH]; intros [|y b] [|i] H1 H2; cbn in *; try lia; auto. apply IH; lia. Qed.
Lemma vscale_nth c (a : vec) i : nth i (vscale c a) 0 = c * nth i a 0.
Proof.
  destruct (Nat.lt_ge_cases i (length a)).
  - unfold vscale. rewrite (nth_indep _ _ (c * 0)) by (rewrite map_length; auto). apply (map_nth (rmul c)).
  - rewrite !nth_overflow by (unfold vscale; rewrite ?map_length; auto). ring.
Qed.
Lemma removelast_length' {A} (l : list A) : length (removelast l) = pred (length l).
Proof. induction l as [|x [|y l] IH]; cbn in *; auto. Qed.
Lemma removelast_nth {A} (l : list A) i d : (S i < length l)%nat -> nth i (removelast l) d = nth i l d.
Proof. revert i. induction l as [|x [|y l] IH]; intros [|i] H; cbn in *; try lia; auto. apply IH. cbn. lia. Qed.
Lemma firstn_nth {A} (l : list A) n i d : (i < n)%nat -> nth i (firstn n l) d = nth i l d.
Proof. revert n i. induction l as [|x l IH]; intros [|n] [|i] H; cbn; try lia; auto. apply IH. lia. Qed.

Lemma raising_ok n v : length v = n -> exists w, raising n v = Ok w /\ length w = n /\ forall i, (i < n)%nat -> nth i w 0 = match i with O => 0 | S k => RtoC (sqrt (INR i)) * nth k v 0 end.
Proof.
  intros L. unfold raising, check_vec. rewrite L, Nat.eqb_refl. cbn [bind]. eexists. split; [reflexivity|]. split.
  - rewrite vmul_length, firstn_length, map_length, seq_length. cbn [length]. rewrite removelast_length'. lia.
  - intros i Hi. rewrite vmul_nth; [|rewrite firstn_length; cbn [length]; rewrite removelast_length'; lia|rewrite map_length, seq_length; auto].
    rewrite nth_sq, firstn_nth by auto. cbn [Nat.add]. destruct i as [|i]; cbn [nth]; [ring|]. rewrite removelast_nth by lia. ring.
Qed.
Lemma lowering_ok n v : length v = n -> exists w, lowering n v = Ok w /\ length w = n /\ forall i, (i < n)%nat -> nth i w 0 = if (S i <? n)%nat then RtoC (sqrt (INR (S i))) * nth (S i) v 0 else 0.
Proof.
  intros L. unfold lowering, check_vec. rewrite L, Nat.eqb_refl. cbn [bind]. eexists. split; [reflexivity|].
  assert (Lt : length (vmul (map rsq (seq 0 n)) v) = n) by (rewrite vmul_length, map_length, seq_length; lia).
  assert (Ltl : length (tl (vmul (map rsq (seq 0 n)) v)) = pred n) by (destruct (vmul _ v); cbn in *; lia).
  split; [rewrite firstn_length, app_length, Ltl; cbn [length]; lia|]. intros i Hi. rewrite firstn_nth by auto.
  destruct (Nat.ltb_spec (S i) n).
  - rewrite app_nth1 by lia. transitivity (nth (S i) (vmul (map rsq (seq 0 n)) v) 0); [destruct (vmul (map rsq (seq 0 n)) v); [destruct i; reflexivity|reflexivity]|].
    rewrite vmul_nth by (rewrite ?map_length, ?seq_length; lia). rewrite nth_sq by lia. reflexivity.
  - rewrite app_nth2 by lia. rewrite Ltl. replace (i - pred n)%nat with O by lia. reflexivity.
Qed.
Lemma raise_sum n i (f : nat -> C_star) : (i < n)%nat -> sumn n (fun j => raise_entry i j * f j) = match i with O => 0 | S k => RtoC (sqrt (INR i)) * f k end.
Proof.
  intros Hi. unfold raise_entry. destruct i as [|i].
  - apply (sumn_zero C_star). intros; cbn [Nat.eqb]; ring.
  - rewrite (sumn_single C_star n i) by (try lia; intros k Hk Ne; rewrite (proj2 (Nat.eqb_neq (S i) (S k))) by lia; ring). rewrite Nat.eqb_refl. reflexivity.
Qed.
Lemma lower_sum n i (f : nat -> C_star) : (i < n)%nat -> sumn n (fun j => lower_entry i j * f j) = if (S i <? n)%nat then RtoC (sqrt (INR (S i))) * f (S i) else 0.
Proof.
  intros Hi. unfold lower_entry. destruct (Nat.ltb_spec (S i) n).
  - rewrite (sumn_single C_star n (S i)) by (try lia; intros k Hk Ne; rewrite (proj2 (Nat.eqb_neq (S i) k)) by lia; ring). rewrite Nat.eqb_refl. reflexivity.
  - apply (sumn_zero C_star). intros k Hk. rewrite (proj2 (Nat.eqb_neq (S i) k)) by lia. ring.
Qed.
Lemma applied_of n M f v w : entries n M f -> length w = n -> (forall i, (i < n)%nat -> nth i w 0 = sumn n (fun j => f i j * nth j v 0)) -> applied n M v w.
Proof. intros (_ & _ & H) L X. split; auto. intros i Hi. rewrite X by auto. apply sumn_ext. intros j Hj. rewrite H by auto. reflexivity. Qed.
Lemma raising_applied n v : (1 <= n)%nat -> length v = n -> exists w, raising n v = Ok w /\ applied n (creation_dense n) v w.
Proof.
  intros Hn L. destruct (raising_ok n v L) as (w & E & Lw & H). exists w. split; auto. apply (applied_of n _ _ v w (creation_entries n Hn) Lw).
  intros i Hi. rewrite H, raise_sum by auto. destruct i; reflexivity.
Qed.
Lemma lowering_applied n v : (1 <= n)%nat -> length v = n -> exists w, lowering n v = Ok w /\ applied n (annihilation_dense n) v w.
Proof.
  intros Hn L. destruct (lowering_ok n v L) as (w & E & Lw & H). exists w. split; auto. apply (applied_of n _ _ v w (annihilation_entries n Hn) Lw).
  intros i Hi. rewrite H, (lower_sum n i (fun j => nth j v 0)) by auto. reflexivity.
Qed.
Lemma coordinate_applied n om m hb v : (1 <= n)%nat -> length v = n ->
  exists X w, coordinate_dense n om m hb = Ok X /\ fst (coordinate_free n om m hb) v = Ok w /\ applied n X v w.
Proof.
  intros Hn L. destruct (coordinate_entries n om m hb Hn) as (X & EX & HX). exists X. destruct (raising_ok n v L) as (a & Ea & La & Ha). destruct (lowering_ok n v L) as (b & Eb & Lb & Hb).
  unfold coordinate_free, operator. cbn [fst]. rewrite Ea. cbn [bind]. rewrite Eb. cbn [bind]. eexists. split; [exact EX|]. split; [reflexivity|].
  apply (applied_of n _ _ v _ HX); [unfold vscale; rewrite map_length, vadd_length; lia|]. intros i Hi. rewrite vscale_nth, vadd_nth by lia.
  rewrite (sumn_ext C_star n _ (fun j => x_coeff om m hb * (raise_entry i j * nth j v 0 + lower_entry i j * nth j v 0))) by (intros; ring).
  rewrite sumn_scal_l, sumn_add, raise_sum, (lower_sum n i (fun j => nth j v 0)) by auto. rewrite Ha, Hb by auto. destruct i; reflexivity.
Qed.
Lemma momentum_applied n om m hb v : (1 <= n)%nat -> length v = n ->
  exists X w, momentum_dense n om m hb = Ok X /\ fst (momentum_free n om m hb) v = Ok w /\ applied n X v w.
Proof.
  intros Hn L. destruct (momentum_entries n om m hb Hn) as (X & EX & HX). exists X. destruct (raising_ok n v L) as (a & Ea & La & Ha). destruct (lowering_ok n v L) as (b & Eb & Lb & Hb).
  unfold momentum_free, operator. cbn [fst]. rewrite Ea. cbn [bind]. rewrite Eb. cbn [bind]. eexists. split; [exact EX|]. split; [reflexivity|].
  apply (applied_of n _ _ v _ HX); [unfold vscale; rewrite map_length, vadd_length, map_length; lia|]. intros i Hi. rewrite vscale_nth, vadd_nth by (unfold vscale; rewrite ?map_length; lia). rewrite vscale_nth.
  rewrite (sumn_ext C_star n _ (fun j => p_coeff om m hb * (raise_entry i j * nth j v 0 + - (1) * (lower_entry i j * nth j v 0)))) by (intros; ring).
  rewrite sumn_scal_l, sumn_add, sumn_scal_l, raise_sum, (lower_sum n i (fun j => nth j v 0)) by auto. rewrite Ha, Hb by auto. destruct i; reflexivity.
Qed.
Lemma number_ok n v : length v = n -> exists w, (let! y := lowering n v in raising n y)%py = Ok w /\ length w = n /\ forall i, (i < n)%nat -> nth i w 0 = RtoC (INR i) * nth i v 0.
Proof.
  intros L. destruct (lowering_ok n v L) as (b & Eb & Lb & Hb). rewrite Eb. cbn [bind]. destruct (raising_ok n b Lb) as (a & Ea & La & Ha). rewrite Ea. exists a. split; auto. split; auto.
  intros i Hi. rewrite Ha by auto. destruct i as [|i]; [cbn [INR]; rewrite RtoC_0; ring|]. rewrite Hb by lia. rewrite (proj2 (Nat.ltb_lt (S i) n)) by auto. rewrite <- sqrt_sq. ring.
Qed.
Lemma diag_sum n f (v : vec) i : (i < n)%nat -> sumn n (fun j => diagonal f i j * nth j v 0) = RtoC (f i) * nth i v 0.
Proof. intros Hi. unfold diagonal. rewrite (sumn_single C_star n i) by (auto; intros k Hk Ne; rewrite (proj2 (Nat.eqb_neq i k)) by auto; ring). rewrite Nat.eqb_refl. reflexivity. Qed.
Lemma number_applied n v : length v = n -> exists w, fst (number_free n) v = Ok w /\ applied n (number_dense n) v w.
Proof.
  intros L. destruct (number_ok n v L) as (w & E & Lw & H). exists w. split; [exact E|]. apply (applied_of n _ _ v w (diag_entries n INR) Lw). intros i Hi. rewrite H, diag_sum by auto. reflexivity.
Qed.
Lemma hamiltonian_applied n om hb v : length v = n -> exists w, fst (hamiltonian_free n om hb) v = Ok w /\ applied n (hamiltonian_dense n om hb) v w.
Proof.
  intros L. destruct (number_ok n v L) as (w & E & Lw & H). unfold hamiltonian_free, operator. cbn [fst].
  destruct (lowering n v) as [y|] eqn:Ey; [|discriminate]. cbn [bind] in *. rewrite E. cbn [bind]. eexists. split; [reflexivity|].
  apply (applied_of n _ _ v _ (diag_entries n _)); [unfold vscale; rewrite map_length, vadd_length, map_length; lia|]. intros i Hi. rewrite diag_sum by auto.
  rewrite vscale_nth, vadd_nth, vscale_nth, H by (unfold vscale; rewrite ?map_length; lia). rewrite !RtoC_mul, RtoC_add. ring.
Qed.
