(** Proofs: the decompositions of the Bose and Fermi functions. *)
From Coq Require Import List Arith ZArith Lia Reals Lra Bool Permutation.
From Verif Require Import Py CorrX_Spec CorrX_Proof Pade_Spec Pade_Proof PadeRoots_Proof BoseFermi_Model Corr_Model.
Import ListNotations.
Local Open Scope R_scope.

(** ** Spectra do not depend on the order *)
Lemma Rsum_sum n f : Rsum n f = fold_right (fun i s => f i + s) 0 (seq 0 n).
Proof.
  induction n as [|n IH]; [reflexivity|]. cbn [Rsum]. rewrite IH, seq_S, fold_right_app. cbn [fold_right plus]. rewrite Rplus_0_r. generalize (f n). intros y. clear IH.
  induction (seq 0 n) as [|z zs IHz]; cbn [fold_right]; [ring|]. rewrite <- IHz. ring.
Qed.
Lemma spectrum_ext M T T' l : (forall i j, (i < M)%nat -> (j < M)%nat -> T i j = T' i j) -> spectrum M T l -> spectrum M T' l.
Proof.
  intros H (L & v & ON & EV). split; [exact L|]. exists v. split; [exact ON|]. intros j i Hj Hi. rewrite <- (EV j i Hj Hi). apply Rsum_ext. intros k Hk. rewrite H by auto. reflexivity.
Qed.
Lemma spectrum_perm M T l l' : Permutation l l' -> spectrum M T l -> spectrum M T l'.
Proof.
  intros P (L & v & ON & EV). apply (Permutation_nth l l' 0) in P as (L' & s & B & I & E). split; [lia|].
  exists (fun j => v (s j)). split.
  - intros j k Hj Hk. rewrite ON by (rewrite <- L; apply B; lia). destruct (Nat.eqb_spec (s j) (s k)) as [Es|Ns], (Nat.eqb_spec j k) as [Ej|Nj]; try reflexivity; [|subst; contradiction]. apply I in Es; [contradiction|lia|lia].
  - intros j i Hj Hi. rewrite E by lia. apply EV; [rewrite <- L; apply B; lia|exact Hi].
Qed.
Lemma insert_perm x l : Permutation (x :: l) (insert x l).
Proof. induction l as [|y l IH]; cbn [insert]; [constructor; constructor|]. destruct (Rle_dec x y); [reflexivity|]. rewrite perm_swap. constructor. exact IH. Qed.
Lemma sort_perm l : Permutation l (sort l).
Proof. induction l as [|x l IH]; cbn [sort fold_right]; [constructor|]. rewrite <- insert_perm. constructor. exact IH. Qed.
Definition ordered (l : list R) : Prop := forall i j, (i < j < length l)%nat -> nth i l 0 <= nth j l 0.
Lemma ordered_tail x l : ordered (x :: l) -> ordered l /\ forall y, In y l -> x <= y.
Proof.
  intros H. split; [intros i j Hij; apply (H (S i) (S j)); cbn [length]; lia|]. intros y Hy. apply (In_nth _ _ 0) in Hy as (j & Hj & <-). apply (H 0%nat (S j)). cbn [length]. lia.
Qed.
Lemma ordered_cons x l : ordered l -> (forall y, In y l -> x <= y) -> ordered (x :: l).
Proof.
  intros H Hx [|i] [|j] Hij; cbn [length] in Hij; try lia.
  - cbn [nth]. apply Hx. apply nth_In. lia.
  - cbn [nth]. apply H. lia.
Qed.
Lemma insert_ordered x l : ordered l -> ordered (insert x l).
Proof.
  induction l as [|y l IH]; intros H; cbn [insert]; [intros i j; cbn [length]; lia|]. destruct (ordered_tail y l H) as (H1 & H2). destruct (Rle_dec x y) as [Le|Gt].
  - apply ordered_cons; [exact H|]. intros z [<-|Hz]; [exact Le|]. pose proof (H2 z Hz). lra.
  - apply ordered_cons; [apply IH; exact H1|]. intros z Hz. apply (Permutation_in _ (Permutation_sym (insert_perm x l))) in Hz as [<-|Hz]; [lra|apply H2; exact Hz].
Qed.
Lemma sort_ordered l : ordered (sort l).
Proof. induction l as [|x l IH]; cbn [sort fold_right]; [intros i j; cbn [length]; lia|]. apply insert_ordered. exact IH. Qed.
Lemma falling_opp l : ordered l -> falling (map Ropp l).
Proof.
  intros H i j Hij. rewrite map_length in Hij. replace 0 with (- 0) by ring. rewrite !map_nth. pose proof (H i j Hij). lra.
Qed.
Lemma tri_beside a M i j : (i < M)%nat -> (j < M)%nat ->
  tri (repeat 0 M) (map (fun i => 1 / sqrt ((a + 2 * INR i) * (a + 2 * INR (i + 1)))) (seq 0 (M - 1))) i j = beside a i j.
Proof.
  intros Hi Hj. unfold tri, beside. set (f := fun i => 1 / sqrt ((a + 2 * INR i) * (a + 2 * INR (i + 1)))).
  assert (F : forall k, (k < M - 1)%nat -> nth k (map f (seq 0 (M - 1))) 0 = 1 / sqrt ((a + 2 * INR k) * (a + 2 * INR k + 2))).
  { intros k Hk. rewrite (nth_indep _ 0 (f 0%nat)) by (rewrite map_length, seq_length; exact Hk). rewrite map_nth, seq_nth by exact Hk. unfold f. cbn [plus]. rewrite plus_INR. cbn [INR]. do 3 f_equal. ring. }
  destruct (Nat.eqb_spec i (S j)) as [E1|N1], (Nat.eqb_spec i j) as [E2|N2], (Nat.eqb_spec j (S i)) as [E3|N3]; try lia.
  - rewrite F by lia. ring.
  - rewrite nth_repeat. ring.
  - rewrite F by lia. ring.
  - ring.
Qed.
Lemma tseig_ok eig a M : let sub := map (fun i => 1 / sqrt ((a + 2 * INR i) * (a + 2 * INR (i + 1)))) (seq 0 (M - 1)) in
  spectrum M (tri (repeat 0 M) sub) (eig M (tri (repeat 0 M) sub)) -> spectrum M (beside a) (tseig eig (repeat 0 M) sub) /\ falling (tseig eig (repeat 0 M) sub).
Proof.
  intros sub SP. unfold tseig. rewrite repeat_length. split; [|apply falling_opp, sort_ordered].
  apply spectrum_ext with (tri (repeat 0 M) sub); [intros; apply tri_beside; auto|]. apply spectrum_perm with (eig M (tri (repeat 0 M) sub)); [|exact SP].
  apply Permutation_trans with (map Ropp (map Ropp (eig M (tri (repeat 0 M) sub)))); [|apply Permutation_map, sort_perm]. rewrite map_map. rewrite (map_ext _ (fun x => x)) by (intros; ring). rewrite map_id. reflexivity.
Qed.

(** ** Partial fractions when the degrees agree *)
Section Equal.
Variables p q : nat -> R.
Definition part2 (n i : nat) : R := Rprod n (fun j => p j - q i) / Rprod n (fun j => if (j =? i)%nat then 1 else q j - q i).
Lemma fractions2 n x : (forall i j, (i < n)%nat -> (j < n)%nat -> i <> j -> q i <> q j) -> (forall i, (i < n)%nat -> x <> q i) ->
  Rprod n (fun j => p j - x) / Rprod n (fun j => q j - x) = 1 + Rsum n (fun i => part2 n i / (q i - x)).
Proof.
  revert x. induction n as [|n IH]; intros x Hq Hx; [cbn [Rprod Rsum]; field|].
  assert (Q1 : forall y, (forall i, (i < n)%nat -> y <> q i) -> Rprod n (fun j => p j - y) / Rprod n (fun j => q j - y) = 1 + Rsum n (fun i => part2 n i / (q i - y))) by (intros y Hy; apply IH; [intros i j Hi Hj Nij; apply Hq; lia|exact Hy]).
  assert (X0 : forall i, (i <= n)%nat -> q i - x <> 0) by (intros i Hi Z; apply (Hx i); [lia|lra]).
  assert (D0 : Rprod n (fun j => q j - x) <> 0) by (apply Rprod_ne; intros i Hi; apply X0; lia).
  assert (Y0 : forall i, (i < n)%nat -> q n - q i <> 0) by (intros i Hi Z; apply (Hq n i); [lia|lia|lia|lra]).
  assert (PP : forall i, (i < n)%nat -> part2 (S n) i = part2 n i * ((p n - q i) / (q n - q i))).
  { intros i Hi. unfold part2. cbn [Rprod]. destruct (Nat.eqb_spec n i); [lia|]. field. split; [apply Y0; exact Hi|]. apply Rprod_ne. intros j Hj. destruct (Nat.eqb_spec j i); [lra|]. intros Z. apply (Hq j i); [lia|lia|auto|lra]. }
  assert (PN : part2 (S n) n = (p n - q n) * (1 + Rsum n (fun i => part2 n i / (q i - q n)))).
  { rewrite <- Q1 by (intros i Hi; apply Hq; lia). unfold part2. cbn [Rprod]. rewrite Nat.eqb_refl. rewrite (Rprod_ext n (fun j => if (j =? n)%nat then 1 else q j - q n) (fun j => q j - q n)) by (intros j Hj; destruct (Nat.eqb_spec j n); [lia|reflexivity]). field. apply Rprod_ne. intros j Hj Z. apply (Hq j n); [lia|lia|lia|lra]. }
  cbn [Rsum]. rewrite PN. rewrite (Rsum_ext n (fun i => part2 (S n) i / (q i - x)) (fun i => part2 n i / (q i - x) * ((p n - x) / (q n - x)) + part2 n i / (q i - q n) * (- ((p n - q n) / (q n - x))))).
  2: { intros i Hi. rewrite PP by exact Hi. pose proof (X0 i ltac:(lia)) as A1. pose proof (X0 n ltac:(lia)) as A2. pose proof (Y0 i Hi) as A3. field. repeat split; auto. intros Z. apply A3. lra. }
  rewrite Rsum_add, !Rsum_scal. pose proof (Q1 x ltac:(intros i Hi; apply Hx; lia)) as QX. cbn [Rprod].
  replace (Rprod n (fun j => p j - x) * (p n - x) / (Rprod n (fun j => q j - x) * (q n - x))) with (Rprod n (fun j => p j - x) / Rprod n (fun j => q j - x) * ((p n - x) / (q n - x))) by (field; split; [apply X0; lia|exact D0]).
  rewrite QX. field. apply X0. lia.
Qed.
End Equal.

(** ** Residues *)
Lemma fold_prod2 (f : nat -> R) j n r : fold_left (fun r k => r * (if negb (k =? j)%nat then f k else 1)) (seq 0 n) r = r * Rprod n (fun k => if (k =? j)%nat then 1 else f k).
Proof. induction n as [|n IH]; [cbn; ring|]. rewrite seq_S, fold_left_app, IH. cbn [fold_left Rprod plus]. destruct (n =? j)%nat; cbn [negb]; ring. Qed.
Section Resi.
Variables (P Q : list R).
Let p k := nth k P 0.
Let q k := nth k Q 0.
Lemma ratio_prod n j : (forall k, (k < n)%nat -> k <> j -> q k - q j <> 0) ->
  Rprod n (fun k => if (k =? j)%nat then 1 else (p k - q j) / (q k - q j)) = Rprod n (fun k => if (k =? j)%nat then 1 else p k - q j) / Rprod n (fun k => if (k =? j)%nat then 1 else q k - q j).
Proof.
  intros H. rewrite <- Rprod_div; [apply Rprod_ext; intros k _; destruct (k =? j)%nat; [field|reflexivity]|]. intros k Hk. destruct (Nat.eqb_spec k j); [lra|apply H; auto].
Qed.
Lemma resi_2 n c j : (j < n)%nat -> (forall a b, (a < n)%nat -> (b < n)%nat -> a <> b -> q a <> q b) -> resi_at 2 n n c P Q j = 0.5 * c * part2 p q n j.
Proof.
  intros Hj H. unfold resi_at. change (2 =? 2)%Z with true. cbv iota. rewrite (fold_prod2 (fun k => (p k - q j) / (q k - q j))). rewrite ratio_prod by (intros k Hk N Z; apply (H k j Hk Hj N); lra).
  unfold part2. rewrite <- (Rprod_but n j (fun k => p k - q j) Hj). fold (p j). fold (q j). field. apply Rprod_ne. intros k Hk. destruct (Nat.eqb_spec k j); [lra|]. intros Z. apply (H k j Hk Hj); [auto|lra].
Qed.
Lemma resi_1 m c j : (j < S m)%nat -> (forall a b, (a < S m)%nat -> (b < S m)%nat -> a <> b -> q a <> q b) -> resi_at 1 (S m) m c P Q j = 0.5 * c * part p q m j.
Proof.
  intros Hj H. unfold resi_at. change (1 =? 2)%Z with false. cbv iota. rewrite (fold_prod2 (fun k => (p k - q j) / (q k - q j))).
  assert (D : forall k, (k < S m)%nat -> k <> j -> q k - q j <> 0) by (intros k Hk N Z; apply (H k j Hk Hj N); lra). rewrite ratio_prod by (intros; apply D; auto; lia).
  replace (S m - 1)%nat with m by lia. fold (p j). fold (q j). fold (q m). unfold part. cbn [Rprod].
  assert (N0 : Rprod m (fun k => if (k =? j)%nat then 1 else q k - q j) <> 0) by (apply Rprod_ne; intros k Hk; destruct (Nat.eqb_spec k j); [lra|apply D; auto; lia]).
  destruct (Nat.eqb_spec j m) as [->|N].
  - rewrite Nat.eqb_refl. rewrite (Rprod_ext m (fun k => if (k =? m)%nat then 1 else p k - q m) (fun k => p k - q m)) by (intros k Hk; destruct (Nat.eqb_spec k m); [lia|reflexivity]). field. exact N0.
  - destruct (Nat.eqb_spec m j); [lia|]. rewrite <- (Rprod_but m j (fun k => p k - q j)) by lia. field. split; [apply D; lia|exact N0].
Qed.
End Resi.

(** ** From the matrices to the continued fraction *)
Lemma Rprod_scal n c f : Rprod n (fun j => c * f j) = c ^ n * Rprod n f.
Proof. induction n as [|n IH]; cbn [Rprod pow]; [ring|]. rewrite IH. ring. Qed.
Lemma quarter l n x : (forall j, (j < n)%nat -> 0 < nth j l 0) -> Rprod n (fun j => x ^ 2 / 4 + / nth j l 0 ^ 2) = (/ 4) ^ n * Rprod n (fun j => (2 / nth j l 0) ^ 2 + x ^ 2).
Proof. intros H. rewrite <- Rprod_scal. apply Rprod_ext. intros j Hj. pose proof (H j Hj). field. lra. Qed.
Lemma prod_pos n (f : nat -> R) : (forall j, (j < n)%nat -> 0 < f j) -> 0 < Rprod n f.
Proof. induction n as [|n IH]; intros H; cbn [Rprod]; [lra|]. apply Rmult_lt_0_compat; [apply IH; intros; apply H; lia|apply H; lia]. Qed.
Lemma x2 x : 0 <= x ^ 2. Proof. rewrite <- Rsqr_pow2. apply Rle_0_sqr. Qed.
Lemma sq_pos l n x : (forall j, (j < n)%nat -> 0 < nth j l 0) -> 0 < Rprod n (fun j => (2 / nth j l 0) ^ 2 + x ^ 2).
Proof. intros H. apply prod_pos. intros j Hj. pose proof (H j Hj). pose proof (x2 x). assert (0 < (2 / nth j l 0) ^ 2) by (apply pow_lt; apply Rdiv_lt_0_compat; lra). lra. Qed.
Lemma pow4 n : (/ 4) ^ n * 4 ^ n = 1.
Proof. rewrite <- Rpow_mult_distr. replace (/ 4 * 4) with 1 by field. apply pow1. Qed.

Section Frac.
Variables (a : R) (lq lp : list R) (x : R).
Hypothesis Ha : 0 < a.
Lemma frac_even m : spectrum (2 * S m) (beside a) lq -> falling lq -> spectrum (S (2 * m)) (beside (a + 2)) lp -> falling lp ->
  x / 4 * frac a (2 * S m) (x ^ 2 / 4) = x * (INR (S m) * (a + 2 * INR (S m))) * Rprod m (fun k => (2 / nth k lp 0) ^ 2 + x ^ 2) / Rprod (S m) (fun j => (2 / nth j lq 0) ^ 2 + x ^ 2).
Proof.
  intros SQ FQ SP FP. pose proof (x2 x). change (2 * S m)%nat with (S (m + S (m + 0))) at 1. rewrite frac_cont by lra. replace (m + S (m + 0))%nat with (S (2 * m)) by lia. replace (S (S (2 * m))) with (2 * S m)%nat by lia.
  rewrite (cont_even a (S m) lq _ Ha SQ FQ). rewrite (cont_odd (a + 2) m lp) by (auto; lra).
  assert (PQ : forall j, (j < S m)%nat -> 0 < nth j lq 0) by (intros j Hj; apply (first_positive a (2 * S m) lq Ha SQ FQ); lia).
  assert (PP : forall j, (j < m)%nat -> 0 < nth j lp 0) by (intros j Hj; apply (first_positive (a + 2) (S (2 * m)) lp ltac:(lra) SP FP); lia).
  rewrite !quarter by auto. pose proof (sq_pos lq (S m) x PQ) as DQ. rewrite S_INR. change ((/ 4) ^ S m) with (/ 4 * (/ 4) ^ m). set (A := Rprod m (fun k => (2 / nth k lp 0) ^ 2 + x ^ 2)). set (B := Rprod (S m) (fun j => (2 / nth j lq 0) ^ 2 + x ^ 2)) in *. pose proof (pow_lt (/ 4) m ltac:(lra)). set (c := (/ 4) ^ m) in *.
  clearbody A B c. field. split; lra.
Qed.
Lemma frac_odd n : spectrum (S (2 * n)) (beside a) lq -> falling lq -> spectrum (2 * n) (beside (a + 2)) lp -> falling lp ->
  x / 4 * frac a (S (2 * n)) (x ^ 2 / 4) = x / (4 * (INR n + 1) * (a + 2 * INR n)) * (Rprod n (fun k => (2 / nth k lp 0) ^ 2 + x ^ 2) / Rprod n (fun j => (2 / nth j lq 0) ^ 2 + x ^ 2)).
Proof.
  intros SQ FQ SP FP. pose proof (x2 x). rewrite frac_cont by lra. rewrite (cont_odd a n lq _ Ha SQ FQ). rewrite (cont_even (a + 2) n lp) by (auto; lra).
  assert (PQ : forall j, (j < n)%nat -> 0 < nth j lq 0) by (intros j Hj; apply (first_positive a (S (2 * n)) lq Ha SQ FQ); lia).
  assert (PP : forall j, (j < n)%nat -> 0 < nth j lp 0) by (intros j Hj; apply (first_positive (a + 2) (2 * n) lp ltac:(lra) SP FP); lia).
  rewrite !quarter by auto. pose proof (sq_pos lq n x PQ) as DQ. rewrite S_INR. pose proof (pos_INR n). set (A := Rprod n (fun k => (2 / nth k lp 0) ^ 2 + x ^ 2)). set (B := Rprod n (fun j => (2 / nth j lq 0) ^ 2 + x ^ 2)) in *. pose proof (pow_lt (/ 4) n ltac:(lra)). set (c := (/ 4) ^ n) in *.
  clearbody A B c. field. repeat split; lra.
Qed.
End Frac.

(** ** The lists of poles *)
Lemma firstn_nth {A} k : forall j (r : list A) d, (j < k)%nat -> nth j (firstn k r) d = nth j r d.
Proof. induction k as [|k IH]; intros j r d Hj; [lia|]. destruct r as [|y r]; cbn [firstn]; [reflexivity|]. destruct j as [|j]; [reflexivity|]. cbn [nth]. apply IH. lia. Qed.
Lemma nth_map0 (f : R -> R) (r : list R) j : (j < length r)%nat -> nth j (map f r) 0 = f (nth j r 0).
Proof. intros Hj. rewrite (nth_indep _ 0 (f 0)) by (rewrite map_length; exact Hj). apply map_nth. Qed.
Section Lists.
Variables (a : R) (M n : nat) (l : list R).
Hypotheses (Ha : 0 < a) (SP : spectrum M (beside a) l) (FA : falling l) (Hn : (2 * n <= M)%nat).
Let poles := map (fun x => 2 / x) (firstn n l).
Lemma firstn_len : length (firstn n l) = n.
Proof. rewrite firstn_length. pose proof (l_len a M l SP). lia. Qed.
Lemma poles_len : length poles = n. Proof. unfold poles. rewrite map_length. apply firstn_len. Qed.
Lemma poles_nth j : (j < n)%nat -> nth j poles 0 = 2 / nth j l 0.
Proof.
  intros Hj. unfold poles. rewrite (nth_indep _ 0 ((fun x => 2 / x) 0)) by (rewrite map_length, firstn_len; exact Hj). rewrite (map_nth (fun x => 2 / x)). f_equal. rewrite firstn_nth by exact Hj. reflexivity.
Qed.
Lemma eigen_pos j : (j < n)%nat -> 0 < nth j l 0.
Proof. intros Hj. apply (first_positive a M l Ha SP FA). lia. Qed.
Lemma poles_pos j : (j < n)%nat -> 0 < nth j poles 0.
Proof. intros Hj. rewrite poles_nth by exact Hj. apply Rdiv_lt_0_compat; [lra|apply eigen_pos; exact Hj]. Qed.
Lemma poles_rising : rising poles.
Proof.
  intros i j Hij. rewrite poles_len in Hij. rewrite !poles_nth by lia. pose proof (strict a M l Ha SP FA i j ltac:(lia)). pose proof (eigen_pos j ltac:(lia)). apply Rmult_lt_compat_l; [lra|]. apply Rinv_lt_contravar; [apply Rmult_lt_0_compat; lra|lra].
Qed.
Lemma poles_differ i j : (i < n)%nat -> (j < n)%nat -> i <> j -> nth i poles 0 * nth i poles 0 <> nth j poles 0 * nth j poles 0.
Proof.
  intros Hi Hj N E. pose proof (poles_pos i Hi). pose proof (poles_pos j Hj). assert (EE : nth i poles 0 = nth j poles 0) by nra. pose proof poles_rising as PR. unfold rising in PR. rewrite poles_len in PR. destruct (Nat.lt_total i j) as [L|[L|L]]; [|lia|].
  - pose proof (PR i j ltac:(lia)). lra.
  - pose proof (PR j i ltac:(lia)). lra.
Qed.
End Lists.
Lemma pole_sum_parts poles resi (w : nat -> R) x : length resi = length poles -> (forall j, (j < length poles)%nat -> nth j resi 0 = w j) ->
  pole_sum poles resi x = Rsum (length poles) (fun j => w j / (nth j poles 0 * nth j poles 0 - - x ^ 2)) * (2 * x).
Proof.
  intros L H. unfold pole_sum. rewrite <- Rsum_scal. apply Rsum_ext. intros j Hj. rewrite H by exact Hj. unfold Rdiv. replace (nth j poles 0 * nth j poles 0 - - x ^ 2) with (x ^ 2 + nth j poles 0 ^ 2) by ring. ring.
Qed.

(** ** The three schemes *)
Section Schemes.
Variables (a : R) (lq lp : list R).
Hypothesis Ha : 0 < a.
Lemma minus_sq l n x j : (forall j, (j < n)%nat -> 0 < nth j l 0) -> (j < n)%nat -> - x ^ 2 <> nth j (map (fun x => x * x) (map (fun x => 2 / x) (firstn n l))) 0.
Proof.
  intros P Hj E. assert (Lj : (j < length (firstn n l))%nat \/ (length (firstn n l) <= j)%nat) by lia. pose proof (P j Hj) as Pj. pose proof (x2 x).
  destruct Lj as [Lj|Lj].
  - rewrite !nth_map0 in E by (rewrite ?map_length; exact Lj). rewrite firstn_nth in E by exact Hj. assert (0 < 2 / nth j l 0) by (apply Rdiv_lt_0_compat; lra). assert (0 < 2 / nth j l 0 * (2 / nth j l 0)) by (apply Rmult_lt_0_compat; lra). lra.
  - rewrite firstn_length in Lj. assert (length l <= j)%nat by lia. rewrite nth_overflow in Pj by assumption. lra.
Qed.
Lemma scheme1 m x (resi : list R) : spectrum (2 * S m) (beside a) lq -> falling lq -> spectrum (S (2 * m)) (beside (a + 2)) lp -> falling lp ->
  let poles := map (fun x => 2 / x) (firstn (S m) lq) in
  let pol2 := map (fun x => x * x) poles in
  let eig2 := map (fun x => x ^ 2) (map (fun x => 2 / x) (firstn m lp)) in
  length resi = S m -> (forall j, (j < S m)%nat -> nth j resi 0 = 0.5 * (INR (S m) * (a + 2 * INR (S m))) * part (fun k => nth k eig2 0) (fun k => nth k pol2 0) m j) ->
  pole_sum poles resi x = x / 4 * frac a (2 * S m) (x ^ 2 / 4).
Proof.
  intros SQ FQ SP FP poles pol2 eig2 LR HR. assert (LP : length poles = S m) by (apply (poles_len a (2 * S m)); auto).
  assert (PQ : forall j, (j < S m)%nat -> 0 < nth j lq 0) by (intros j Hj; apply (first_positive a (2 * S m) lq Ha SQ FQ); lia).
  assert (PP : forall j, (j < m)%nat -> 0 < nth j lp 0) by (intros j Hj; apply (first_positive (a + 2) (S (2 * m)) lp ltac:(lra) SP FP); lia).
  rewrite (pole_sum_parts poles resi (fun j => 0.5 * (INR (S m) * (a + 2 * INR (S m))) * part (fun k => nth k eig2 0) (fun k => nth k pol2 0) m j)) by (rewrite ?LP; auto). rewrite LP.
  set (c := INR (S m) * (a + 2 * INR (S m))).
  rewrite (Rsum_ext (S m) _ (fun j => part (fun k => nth k eig2 0) (fun k => nth k pol2 0) m j / (nth j pol2 0 - - x ^ 2) * (0.5 * c))).
  2: { intros j Hj. assert (EP : nth j pol2 0 = nth j poles 0 * nth j poles 0) by (unfold pol2; apply (nth_map0 (fun x => x * x)); rewrite LP; exact Hj). rewrite EP. unfold Rdiv. replace (nth j poles 0 * nth j poles 0 - - x ^ 2) with (x ^ 2 + nth j poles 0 * nth j poles 0) by ring. ring. }
  rewrite Rsum_scal, <- (fractions (fun k => nth k eig2 0) (fun k => nth k pol2 0) m (- x ^ 2)).
  2: { intros i j Hi Hj N. unfold pol2. rewrite !(nth_map0 (fun x => x * x)) by (rewrite LP; lia). apply (poles_differ a (2 * S m)); auto; lia. }
  2: { intros j Hj. unfold pol2, poles. apply minus_sq; [exact PQ|lia]. }
  rewrite (frac_even a lq lp x Ha m SQ FQ SP FP). fold c.
  rewrite (Rprod_ext m (fun k => nth k eig2 0 - - x ^ 2) (fun k => (2 / nth k lp 0) ^ 2 + x ^ 2)).
  2: { intros j Hj. unfold eig2. assert (length (firstn m lp) = m) by (apply (firstn_len (a + 2) (S (2 * m))); [exact SP|lia]). rewrite !nth_map0 by (rewrite ?map_length; lia). rewrite firstn_nth by exact Hj. ring. }
  rewrite (Rprod_ext (S m) (fun k => nth k pol2 0 - - x ^ 2) (fun k => (2 / nth k lq 0) ^ 2 + x ^ 2)).
  2: { intros j Hj. unfold pol2. rewrite nth_map0 by (rewrite LP; exact Hj). unfold poles. rewrite (poles_nth a (2 * S m)) by (auto; lia). ring. }
  pose proof (sq_pos lq (S m) x PQ) as DQ. replace 0.5 with (1 / 2) by lra. field. lra.
Qed.
Lemma scheme2 n x (resi : list R) : spectrum (S (2 * n)) (beside a) lq -> falling lq -> spectrum (2 * n) (beside (a + 2)) lp -> falling lp ->
  let poles := map (fun x => 2 / x) (firstn n lq) in
  let pol2 := map (fun x => x * x) poles in
  let eig2 := map (fun x => x ^ 2) (map (fun x => 2 / x) (firstn n lp)) in
  length resi = n -> (forall j, (j < n)%nat -> nth j resi 0 = 0.5 * (1 / (4 * (INR n + 1) * (2 * INR n + a))) * part2 (fun k => nth k eig2 0) (fun k => nth k pol2 0) n j) ->
  pole_sum poles resi x + 1 / (4 * (INR n + 1) * (2 * INR n + a)) * x = x / 4 * frac a (S (2 * n)) (x ^ 2 / 4).
Proof.
  intros SQ FQ SP FP poles pol2 eig2 LR HR. assert (LP : length poles = n) by (apply (poles_len a (S (2 * n))); auto).
  assert (PQ : forall j, (j < n)%nat -> 0 < nth j lq 0) by (intros j Hj; apply (first_positive a (S (2 * n)) lq Ha SQ FQ); lia).
  assert (PP : forall j, (j < n)%nat -> 0 < nth j lp 0) by (intros j Hj; apply (first_positive (a + 2) (2 * n) lp ltac:(lra) SP FP); lia).
  set (c := 1 / (4 * (INR n + 1) * (2 * INR n + a))) in *.
  rewrite (pole_sum_parts poles resi (fun j => 0.5 * c * part2 (fun k => nth k eig2 0) (fun k => nth k pol2 0) n j)) by (rewrite ?LP; auto). rewrite LP.
  rewrite (Rsum_ext n _ (fun j => part2 (fun k => nth k eig2 0) (fun k => nth k pol2 0) n j / (nth j pol2 0 - - x ^ 2) * (0.5 * c))).
  2: { intros j Hj. assert (EP : nth j pol2 0 = nth j poles 0 * nth j poles 0) by (unfold pol2; apply (nth_map0 (fun x => x * x)); rewrite LP; exact Hj). rewrite EP. unfold Rdiv. replace (nth j poles 0 * nth j poles 0 - - x ^ 2) with (x ^ 2 + nth j poles 0 * nth j poles 0) by ring. ring. }
  rewrite Rsum_scal. pose proof (fractions2 (fun k => nth k eig2 0) (fun k => nth k pol2 0) n (- x ^ 2)) as F. cbv beta in F.
  rewrite (Rprod_ext n (fun k => nth k eig2 0 - - x ^ 2) (fun k => (2 / nth k lp 0) ^ 2 + x ^ 2)) in F.
  2: { intros j Hj. unfold eig2. assert (length (firstn n lp) = n) by (apply (firstn_len (a + 2) (2 * n)); [exact SP|lia]). rewrite !nth_map0 by (rewrite ?map_length; lia). rewrite firstn_nth by exact Hj. ring. }
  rewrite (Rprod_ext n (fun k => nth k pol2 0 - - x ^ 2) (fun k => (2 / nth k lq 0) ^ 2 + x ^ 2)) in F.
  2: { intros j Hj. unfold pol2. rewrite nth_map0 by (rewrite LP; exact Hj). unfold poles. rewrite (poles_nth a (S (2 * n))) by (auto; lia). ring. }
  rewrite (frac_odd a lq lp x Ha n SQ FQ SP FP). rewrite F.
  - unfold c. pose proof (pos_INR n). replace 0.5 with (1 / 2) by lra. field. split; lra.
  - intros i j Hi Hj N. unfold pol2. rewrite !(nth_map0 (fun x => x * x)) by (rewrite LP; lia). apply (poles_differ a (S (2 * n))); auto; lia.
  - intros j Hj. unfold pol2, poles. apply minus_sq; [exact PQ|lia].
Qed.
End Schemes.
Lemma seq_map_nth (f : nat -> R) n j : (j < n)%nat -> nth j (map f (seq 0 n)) 0 = f j.
Proof. intros Hj. rewrite (nth_indep _ 0 (f 0%nat)) by (rewrite map_length, seq_length; exact Hj). rewrite map_nth, seq_nth by exact Hj. reflexivity. Qed.
Lemma inverses_ok eig a M n : finds eig a M -> exists l, spectrum M (beside a) l /\ falling l /\ inverses eig a M n = map (fun x => 2 / x) (firstn n l).
Proof.
  intros F. unfold inverses. set (sub := map (fun i => 1 / sqrt ((a + 2 * INR i) * (a + 2 * INR (i + 1)))) (seq 0 (M - 1))). exists (tseig eig (repeat 0 M) sub). split; [|split; [|reflexivity]]; apply tseig_ok; apply spectrum_ext with (beside a); try (intros; symmetry; apply tri_beside; auto); apply F; intros; apply tri_beside; auto.
Qed.
Lemma psd_1 eig bf a N : (bf = 1%Z /\ a = 3 \/ bf = 2%Z /\ a = 1) -> (1 <= N)%nat -> finds eig a (2 * N) -> finds eig (a + 2) (2 * N - 1) ->
  exists xi eta, psd eig (Z.of_nat N) bf 1 = Ok (xi, eta, 0, 0) /\ pole_list N xi eta /\ forall x, pole_sum xi eta x = x / 4 * frac a (2 * N) (x ^ 2 / 4).
Proof.
  intros B HN FQ FP. destruct N as [|m]; [lia|]. replace (2 * S m - 1)%nat with (S (2 * m)) in FP by lia. destruct (inverses_ok eig a (2 * S m) (S m) FQ) as (lq & SQ & FAQ & EQ). destruct (inverses_ok eig (a + 2) (S (2 * m)) m FP) as (lp & SP & FAP & EP).
  assert (Ha : 0 < a) by (destruct B as [(_ & ->)|(_ & ->)]; lra).
  set (poles := map (fun x => 2 / x) (firstn (S m) lq)) in *. set (pol2 := map (fun x => x * x) poles). set (eig2 := map (fun x => x ^ 2) (map (fun x => 2 / x) (firstn m lp))).
  set (c := INR (S m) * (a + 2 * INR (S m))). exists poles, (map (resi_at 1 (S m) m c eig2 pol2) (seq 0 (S m))).
  assert (LP : length poles = S m) by (apply (poles_len a (2 * S m)); auto).
  assert (DQ : forall i k, (i < S m)%nat -> (k < S m)%nat -> i <> k -> nth i pol2 0 <> nth k pol2 0).
  { intros i k Hi Hk NE. unfold pol2. rewrite !(nth_map0 (fun x => x * x)) by (rewrite LP; lia). apply (poles_differ a (2 * S m) (S m)); auto; lia. }
  assert (E : psd eig (Z.of_nat (S m)) bf 1 = Ok (poles, map (resi_at 1 (S m) m c eig2 pol2) (seq 0 (S m)), 0, 0)).
  { unfold psd. change (1 =? 0)%Z with false. change (1 =? 1)%Z with true. change (1 =? 2)%Z with false. change (1 =? 3)%Z with false. change (Z.to_nat (1 / 2)) with 0%nat. rewrite Nat2Z.id.
    replace (0 <=? Z.of_nat (S m))%Z with true by (symmetry; apply Z.leb_le; lia). replace (0 <? Z.of_nat (S m))%Z with true by (symmetry; apply Z.ltb_lt; lia).
    replace (2 * S m + 0)%nat with (2 * S m)%nat by lia. replace (2 * S m - 1)%nat with (S (2 * m)) by lia. replace (S (2 * m) / 2)%nat with m by (rewrite <- Nat.div2_div; symmetry; apply Nat.div2_succ_double || (rewrite Nat.div2_div; apply Nat.div_unique with 1%nat; lia)).
    destruct B as [(-> & ->)|(-> & ->)].
    - change (1 =? 1)%Z with true. change (1 =? 2)%Z with false. cbn [negb orb andb]. rewrite EQ. replace (3 + 2) with 5 in EP by lra. rewrite EP. replace (INR (S m) * (2 * INR (S m) + 3)) with c by (unfold c; ring). reflexivity.
    - change (2 =? 1)%Z with false. change (2 =? 2)%Z with true. cbn [negb orb andb]. rewrite EQ. replace (1 + 2) with 3 in EP by lra. rewrite EP. replace (INR (S m) * (2 * INR (S m) + 1)) with c by (unfold c; ring). reflexivity. }
  split; [exact E|]. split; [split; [exact LP|split; [rewrite map_length, seq_length; reflexivity|split; [apply (poles_rising a (2 * S m)); auto|intros j Hj; apply (poles_pos a (2 * S m)); auto]]]|].
  intros x. apply (scheme1 a lq lp Ha m x); auto; [rewrite map_length, seq_length; reflexivity|]. intros j Hj. rewrite seq_map_nth by exact Hj. apply resi_1; [exact Hj|exact DQ].
Qed.
Lemma psd_2 eig bf a N : (bf = 1%Z /\ a = 3 \/ bf = 2%Z /\ a = 1) -> finds eig a (S (2 * N)) -> finds eig (a + 2) (2 * N) ->
  exists xi eta, psd eig (Z.of_nat N) bf 2 = Ok (xi, eta, if (bf =? 1)%Z then 1 / (4 * (INR N + 1) * (2 * INR N + 3)) else 0, 0) /\ pole_list N xi eta /\
    forall x, pole_sum xi eta x + 1 / (4 * (INR N + 1) * (2 * INR N + a)) * x = x / 4 * frac a (S (2 * N)) (x ^ 2 / 4).
Proof.
  intros B FQ FP. destruct (inverses_ok eig a (S (2 * N)) N FQ) as (lq & SQ & FAQ & EQ). destruct (inverses_ok eig (a + 2) (2 * N) N FP) as (lp & SP & FAP & EP).
  assert (Ha : 0 < a) by (destruct B as [(_ & ->)|(_ & ->)]; lra).
  set (poles := map (fun x => 2 / x) (firstn N lq)) in *. set (pol2 := map (fun x => x * x) poles). set (eig2 := map (fun x => x ^ 2) (map (fun x => 2 / x) (firstn N lp))).
  set (c := 1 / (4 * (INR N + 1) * (2 * INR N + a))). exists poles, (map (resi_at 2 N N c eig2 pol2) (seq 0 N)).
  assert (LP : length poles = N) by (apply (poles_len a (S (2 * N))); auto).
  assert (DQ : forall i k, (i < N)%nat -> (k < N)%nat -> i <> k -> nth i pol2 0 <> nth k pol2 0).
  { intros i k Hi Hk NE. unfold pol2. rewrite !(nth_map0 (fun x => x * x)) by (rewrite LP; lia). apply (poles_differ a (S (2 * N)) (N)); auto; lia. }
  assert (E : psd eig (Z.of_nat N) bf 2 = Ok (poles, map (resi_at 2 N N c eig2 pol2) (seq 0 N), if (bf =? 1)%Z then 1 / (4 * (INR N + 1) * (2 * INR N + 3)) else 0, 0)).
  { unfold psd. change (2 =? 0)%Z with false. change (2 =? 1)%Z with false. change (2 =? 2)%Z with true. change (2 =? 3)%Z with false. change (Z.to_nat (2 / 2)) with 1%nat. rewrite Nat2Z.id.
    replace (0 <=? Z.of_nat N)%Z with true by (symmetry; apply Z.leb_le; lia).
    replace (2 * N + 1)%nat with (S (2 * N)) by lia. replace (S (2 * N) - 1)%nat with (2 * N)%nat by lia. replace (2 * N / 2)%nat with N by (rewrite Nat.mul_comm; symmetry; apply Nat.div_mul; lia).
    destruct (Z.ltb_spec 0 (Z.of_nat N)) as [Pos|Zero].
    - destruct B as [(-> & ->)|(-> & ->)].
      + change (1 =? 1)%Z with true. change (1 =? 2)%Z with false. cbn [negb orb andb]. rewrite EQ. replace (3 + 2) with 5 in EP by lra. rewrite EP. reflexivity.
      + change (2 =? 1)%Z with false. change (2 =? 2)%Z with true. cbn [negb orb andb]. rewrite EQ. replace (1 + 2) with 3 in EP by lra. rewrite EP. reflexivity.
    - assert (N = 0%nat) as -> by lia. destruct B as [(-> & ->)|(-> & ->)]; reflexivity. }
  split; [exact E|]. split; [split; [exact LP|split; [rewrite map_length, seq_length; reflexivity|split; [apply (poles_rising a (S (2 * N))); auto|intros j Hj; apply (poles_pos a (S (2 * N))); auto]]]|].
  intros x. apply (scheme2 a lq lp Ha N x); auto; [rewrite map_length, seq_length; reflexivity|]. intros j Hj. rewrite seq_map_nth by exact Hj. apply resi_2; [exact Hj|exact DQ].
Qed.
(** The decomposition of corr.py *)
Lemma corr_pade eig N : (1 <= N)%nat -> finds_falling eig 3 (2 * N) -> finds_falling eig 5 (2 * N - 1) ->
  let (xi, eta) := pade eig N in pole_list N xi eta /\ forall x, pole_sum xi eta x = x / 4 * frac 3 (2 * N) (x ^ 2 / 4).
Proof.
  intros HN FQ FP. destruct N as [|m]; [lia|]. replace (2 * S m - 1)%nat with (S (2 * m)) in FP by lia.
  set (sq := map (fun i => 1 / sqrt (INR ((3 + 2 * i) * (3 + 2 + 2 * i)))) (seq 0 (2 * S m - 1))). set (sp := map (fun i => 1 / sqrt (INR ((5 + 2 * i) * (5 + 2 + 2 * i)))) (seq 0 (2 * S m - 2))).
  destruct (FQ sq) as (SQ & FAQ). { unfold sq. rewrite map_length, seq_length. reflexivity. } { intros i Hi. unfold sq. rewrite seq_map_nth by lia. unfold beside. rewrite Nat.eqb_refl. rewrite mult_INR, !plus_INR, mult_INR. cbn [INR]. do 3 f_equal; ring. }
  destruct (FP sp) as (SP & FAP). { unfold sp. rewrite map_length, seq_length. lia. } { intros i Hi. unfold sp. rewrite seq_map_nth by lia. unfold beside. rewrite Nat.eqb_refl. rewrite mult_INR, !plus_INR, mult_INR. cbn [INR]. do 3 f_equal; ring. }
  unfold pade. fold sq sp. unfold poles_of. fold sq. replace (S m - 1)%nat with m by lia. change (map (fun i => 1 / sqrt (INR ((5 + 2 * i) * (5 + 2 + 2 * i)))) (seq 0 (2 * S m - 2))) with sp.
  set (poles := map (fun x => 2 / x) (firstn (S m) (eig sq))). set (pol2 := map (fun x => x * x) poles). set (P := map (fun x => x * x) (map (fun x => 2 / x) (firstn m (eig sp)))).
  assert (LP : length poles = S m) by (apply (poles_len 3 (2 * S m)); auto).
  assert (DQ : forall i k, (i < S m)%nat -> (k < S m)%nat -> i <> k -> nth i pol2 0 <> nth k pol2 0).
  { intros i k Hi Hk N. unfold pol2. rewrite !(nth_map0 (fun x => x * x)) by (rewrite LP; lia). apply (poles_differ 3 (2 * S m)); auto; lra. }
  split; [split; [exact LP|split; [rewrite map_length, seq_length; reflexivity|split; [apply (poles_rising 3 (2 * S m)); auto; lra|intros j Hj; apply (poles_pos 3 (2 * S m)); auto; lra]]]|].
  intros x. assert (EP : P = map (fun x => x ^ 2) (map (fun x => 2 / x) (firstn m (eig sp)))) by (unfold P; apply map_ext; intros; ring). replace (2 * 3)%nat with 6%nat by lia.
  assert (H3 : 0 < 3) by lra. replace 5 with (3 + 2) in SP by lra. pose proof (scheme1 3 (eig sq) (eig sp) H3 m x (map (residue (S m) P pol2) (seq 0 (S m))) SQ FAQ SP FAP) as S1. cbv zeta in S1. fold poles in S1. fold pol2 in S1. rewrite <- EP in S1.
  apply S1; [rewrite map_length, seq_length; reflexivity|]. intros j Hj. rewrite seq_map_nth by exact Hj. rewrite (residue_part (S m) P pol2 j Hj DQ). replace (S m - 1)%nat with m by lia. ring.
Qed.

(** ** Matsubara frequencies *)
Lemma even_root i : unit_root 1 (2 * INR i * PI).
Proof. split; [rewrite <- (Rplus_0_l (2 * INR i * PI)), cos_period; apply cos_0|rewrite <- (Rplus_0_l (2 * INR i * PI)), sin_period; apply sin_0]. Qed.
Lemma odd_root i : unit_root (-1) ((2 * INR i + 1) * PI).
Proof. replace ((2 * INR i + 1) * PI) with (PI + 2 * INR i * PI) by ring. split; [rewrite cos_period; apply cos_PI|rewrite sin_period; apply sin_PI]. Qed.
Lemma root_cases w : 0 < w -> sin w = 0 -> (exists i, w = 2 * INR (i + 1) * PI) \/ (exists i, w = (2 * INR i + 1) * PI).
Proof.
  intros P H. destruct (sin_eq_0_0 w H) as (k & ->). pose proof PI_RGT_0 as HP. assert (0 < k)%Z as Hk. { apply lt_IZR. apply Rmult_lt_reg_r with PI; lra. }
  destruct (Z.Even_or_Odd k) as [(q & E)|(q & E)].
  - left. exists (Z.to_nat (q - 1)). rewrite INR_IZR_INZ. replace (Z.of_nat (Z.to_nat (q - 1) + 1)) with q by lia. rewrite E, mult_IZR. reflexivity.
  - right. exists (Z.to_nat q). rewrite INR_IZR_INZ, Z2Nat.id by lia. rewrite E, plus_IZR, mult_IZR. reflexivity.
Qed.
Lemma even_roots N w : 0 < w <= 2 * INR N * PI -> (unit_root 1 w <-> In w (map (fun i => 2 * INR (i + 1) * PI) (seq 0 N))).
Proof.
  intros [P U]. pose proof PI_RGT_0 as HP. rewrite in_map_iff. split.
  - intros (C & H). destruct (root_cases w P H) as [(i & ->)|(i & ->)].
    + exists i. split; [reflexivity|]. apply in_seq. assert (INR (i + 1) <= INR N) by (apply Rmult_le_reg_r with PI; lra). apply INR_le in H0. lia.
    + exfalso. destruct (odd_root i) as (C' & _). lra.
  - intros (i & <- & _). apply even_root.
Qed.
Lemma odd_roots N w : 0 < w <= 2 * INR N * PI -> (unit_root (-1) w <-> In w (map (fun i => (2 * INR i + 1) * PI) (seq 0 N))).
Proof.
  intros [P U]. pose proof PI_RGT_0 as HP. rewrite in_map_iff. split.
  - intros (C & H). destruct (root_cases w P H) as [(i & ->)|(i & ->)].
    + exfalso. destruct (even_root (i + 1)) as (C' & _). lra.
    + exists i. split; [reflexivity|]. apply in_seq. assert (2 * INR i + 1 <= 2 * INR N) by (apply Rmult_le_reg_r with PI; lra). assert (INR i < INR N) by lra. apply INR_lt in H1. lia.
  - intros (i & <- & _). apply odd_root.
Qed.
Lemma rising_seq (f : nat -> R) N : (forall i j, (i < j)%nat -> f i < f j) -> rising (map f (seq 0 N)).
Proof. intros H i j Hij. rewrite map_length, seq_length in Hij. rewrite !seq_map_nth by lia. apply H. lia. Qed.
Lemma even_list N : pole_list N (map (fun i => 2 * INR (i + 1) * PI) (seq 0 N)) (repeat 1 N).
Proof.
  pose proof PI_RGT_0 as HP. split; [rewrite map_length; apply seq_length|]. split; [apply repeat_length|]. split.
  - apply rising_seq. intros i j Hij. apply Rmult_lt_compat_r; [lra|]. apply lt_INR in Hij. rewrite !plus_INR. lra.
  - intros j Hj. rewrite seq_map_nth by exact Hj. rewrite plus_INR. pose proof (pos_INR j). apply Rmult_lt_0_compat; cbn [INR]; lra.
Qed.
Lemma odd_list N : pole_list N (map (fun i => (2 * INR i + 1) * PI) (seq 0 N)) (repeat 1 N).
Proof.
  pose proof PI_RGT_0 as HP. split; [rewrite map_length; apply seq_length|]. split; [apply repeat_length|]. split.
  - apply rising_seq. intros i j Hij. apply Rmult_lt_compat_r; [lra|]. apply lt_INR in Hij. lra.
  - intros j Hj. rewrite seq_map_nth by exact Hj. pose proof (pos_INR j). apply Rmult_lt_0_compat; lra.
Qed.

(** ** Small matrices *)
Lemma spectrum_1 T : T 0%nat 0%nat = 0 -> spectrum 1 T [0].
Proof.
  intros E. split; [reflexivity|]. exists (fun _ _ => 1). split.
  - intros j k Hj Hk. assert (j = 0%nat) as -> by lia. assert (k = 0%nat) as -> by lia. cbn. ring.
  - intros j i Hj Hi. assert (j = 0%nat) as -> by lia. assert (i = 0%nat) as -> by lia. cbn. rewrite E. ring.
Qed.
Lemma half_sq : / sqrt 2 * / sqrt 2 = 1 / 2.
Proof. rewrite <- Rinv_mult. rewrite sqrt_sqrt by lra. lra. Qed.
Lemma spectrum_2 T p : T 0%nat 0%nat = 0 -> T 1%nat 1%nat = 0 -> T 0%nat 1%nat = p -> T 1%nat 0%nat = p -> spectrum 2 T [p; - p].
Proof.
  intros E0 E1 E2 E3. split; [reflexivity|]. pose proof half_sq as H. exists (fun j i => match j, i with 1%nat, 1%nat => - / sqrt 2 | _, _ => / sqrt 2 end). split.
  - intros j k Hj Hk. destruct j as [|[|j]]; [| |lia]; (destruct k as [|[|k]]; [| |lia]); cbn; nra.
  - intros j i Hj Hi. destruct j as [|[|j]]; [| |lia]; (destruct i as [|[|i]]; [| |lia]); cbn; rewrite ?E0, ?E1, ?E2, ?E3; ring.
Qed.
Lemma spectrum_3 T p q : T 0%nat 0%nat = 0 -> T 1%nat 1%nat = 0 -> T 2%nat 2%nat = 0 -> T 0%nat 2%nat = 0 -> T 2%nat 0%nat = 0 ->
  T 0%nat 1%nat = p -> T 1%nat 0%nat = p -> T 1%nat 2%nat = q -> T 2%nat 1%nat = q -> 0 < p -> spectrum 3 T [sqrt (p ^ 2 + q ^ 2); 0; - sqrt (p ^ 2 + q ^ 2)].
Proof.
  intros E0 E1 E2 E3 E4 P1 P2 Q1 Q2 Hp. split; [reflexivity|]. pose proof half_sq as H. set (s := sqrt (p ^ 2 + q ^ 2)). set (h := / sqrt 2) in *.
  assert (B : 0 < p ^ 2 + q ^ 2) by (pose proof (x2 q); assert (0 < p ^ 2) by (apply pow_lt; exact Hp); lra).
  assert (s2 : s * s = p ^ 2 + q ^ 2) by (apply sqrt_sqrt; lra). assert (s0 : s <> 0) by (assert (0 < s) by (apply sqrt_lt_R0; exact B); lra).
  exists (fun j i => match j, i with
    | 0%nat, 0%nat => p / s * h | 0%nat, 1%nat => h | 0%nat, _ => q / s * h
    | 1%nat, 0%nat => q / s | 1%nat, 1%nat => 0 | 1%nat, _ => - p / s
    | _, 0%nat => p / s * h | _, 1%nat => - h | _, _ => q / s * h end).
  assert (U : p / s * (p / s) + q / s * (q / s) = 1). { replace (p / s * (p / s) + q / s * (q / s)) with ((p ^ 2 + q ^ 2) / (s * s)) by (field; exact s0). rewrite s2. field. lra. }
  assert (V : p * (p / s) + q * (q / s) = s). { replace (p * (p / s) + q * (q / s)) with ((p ^ 2 + q ^ 2) / s) by (field; exact s0). rewrite <- s2. field. exact s0. }
  split.
  - intros j k Hj Hk. replace (- p / s) with (- (p / s)) by (field; exact s0). set (u := p / s) in *. set (w := q / s) in *.
    assert (UH : u * h * (u * h) + w * h * (w * h) = 1 / 2). { replace (u * h * (u * h) + w * h * (w * h)) with ((u * u + w * w) * (h * h)) by ring. rewrite U, H. lra. }
    destruct j as [|[|[|j]]]; [| | |lia]; (destruct k as [|[|[|k]]]; [| | |lia]); cbn [Rsum Nat.eqb]; lra.
  - intros j i Hj Hi. destruct j as [|[|[|j]]]; [| | |lia]; (destruct i as [|[|[|i]]]; [| | |lia]); cbn [Rsum nth]; rewrite ?E0, ?E1, ?E2, ?E3, ?E4, ?P1, ?P2, ?Q1, ?Q2.
    1, 3, 4, 5, 6, 7, 9: field; exact s0.
    + transitivity ((p * (p / s) + q * (q / s)) * h); [ring|]. rewrite V. ring.
    + transitivity ((p * (p / s) + q * (q / s)) * h); [ring|]. rewrite V. ring.
Qed.
