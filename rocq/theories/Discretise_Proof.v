(** Integrals, and the loop of [linear_discretization]. *)
From Coq Require Import String List Arith ZArith Bool Lia Reals Lra.
From Verif Require Import Py Alg Cplx NdArray_Model Phonon_Model Spin_Model Discretise_Model Discretise_Spec.
Import ListNotations.
Local Open Scope R_scope.

(** ** Integrals *)
Lemma integral_unique f a b u v : integral f a b u -> integral f a b v -> u = v.
Proof. intros [p <-] [q <-]. apply RiemannInt_P5. Qed.
Lemma integral_refl f a : integral f a a 0.
Proof. exists (RiemannInt_P7 f a). apply RiemannInt_P9. Qed.
Lemma integral_add f a b c u v : integral f a b u -> integral f b c v -> integral f a c (u + v).
Proof. intros [p <-] [q <-]. exists (RiemannInt_P24 p q). symmetry. apply RiemannInt_P26. Qed.
Lemma integral_lin f g k a b u v : integral f a b u -> integral g a b v -> integral (fun x => f x + k * g x) a b (u + k * v).
Proof. intros [p <-] [q <-]. exists (RiemannInt_P10 k p q). apply RiemannInt_P13. Qed.
Lemma integral_const c a b : integral (fun _ => c) a b (c * (b - a)).
Proof. exists (RiemannInt_P14 a b c). apply RiemannInt_P15. Qed.
Lemma integral_ext f g a b v : a <= b -> (forall x, a < x < b -> f x = g x) -> integral f a b v -> (exists w, integral g a b w) -> integral g a b v.
Proof. intros L E [p <-] [w [q Hq]]. exists q. symmetry. apply RiemannInt_P18; auto. Qed.
Lemma integral_le f g a b u v : a <= b -> (forall x, a < x < b -> f x <= g x) -> integral f a b u -> integral g a b v -> u <= v.
Proof. intros L H [p <-] [q <-]. apply RiemannInt_P19; auto. Qed.
Lemma integral_sub f a b x y v : a <= x -> x <= y -> y <= b -> integral f a b v -> exists w, integral f x y w.
Proof.
  intros A B C [p _]. assert (p1 : Riemann_integrable f a y) by (apply RiemannInt_P22 with b; [exact p|lra]).
  assert (p2 : Riemann_integrable f x y) by (apply RiemannInt_P23 with a; [exact p1|lra]). exists (RiemannInt p2), p2. reflexivity.
Qed.
Lemma integral_cont f a b : a <= b -> (forall x, a <= x <= b -> continuity_pt f x) -> exists v, integral f a b v.
Proof. intros L C. pose (p := continuity_implies_RiemannInt L C). exists (RiemannInt p), p. reflexivity. Qed.

Lemma integral_pos f a b c v : a < c < b -> (forall x, a < x < b -> 0 <= f x) -> 0 < f c -> continuity_pt f c -> integral f a b v -> 0 < v.
Proof.
  intros Hc N P C I. destruct (C (f c / 2)) as (d & D0 & D); [lra|]. cbn [dist R_met] in D. unfold R_dist in D.
  set (e := Rmin (d / 2) (Rmin ((c - a) / 2) ((b - c) / 2))).
  assert (E1 : e <= d / 2) by apply Rmin_l. assert (E2 : e <= (c - a) / 2) by (eapply Rle_trans; [apply Rmin_r|apply Rmin_l]). assert (E3 : e <= (b - c) / 2) by (eapply Rle_trans; [apply Rmin_r|apply Rmin_r]).
  assert (E0 : 0 < e) by (unfold e; repeat apply Rmin_glb_lt; lra).
  destruct (integral_sub f a b a (c - e) v) as (u1 & I1); try lra; auto. destruct (integral_sub f a b (c - e) (c + e) v) as (u2 & I2); try lra; auto. destruct (integral_sub f a b (c + e) b v) as (u3 & I3); try lra; auto.
  assert (V : v = u1 + u2 + u3) by (apply (integral_unique f a b); [exact I|]; apply (integral_add f a (c + e) b); [apply (integral_add f a (c - e) (c + e))|]; auto).
  assert (0 * (c - e - a) <= u1) by (apply (integral_le (fun _ => 0) f a (c - e)); [lra|intros; apply N; lra|apply integral_const|exact I1]).
  assert (0 * (b - (c + e)) <= u3) by (apply (integral_le (fun _ => 0) f (c + e) b); [lra|intros; apply N; lra|apply integral_const|exact I3]).
  assert (f c / 2 * (c + e - (c - e)) <= u2).
  { apply (integral_le (fun _ => f c / 2) f (c - e) (c + e)); [lra| |apply integral_const|exact I2]. intros x Hx. destruct (Req_dec x c) as [->|Nx]; [lra|].
    assert (A : Rabs (f x - f c) < f c / 2). { apply D. split; [split; [exact Logic.I|auto]|]. apply Rabs_def1; lra. } apply Rabs_def2 in A. lra. }
  assert (0 < f c / 2 * (c + e - (c - e))) by (apply Rmult_lt_0_compat; lra). lra.
Qed.

(** The mean of the density lies in the interval. *)
Lemma scaled f k a b v : integral f a b v -> integral (fun x => 0 + k * f x) a b (0 + k * v).
Proof. intros I. apply (integral_lin (fun _ => 0) f k); [|exact I]. pose proof (integral_const 0 a b) as Z. rewrite Rmult_0_l in Z. exact Z. Qed.
Lemma mean_bounds f a b d m : a <= b -> (forall x, a < x < b -> 0 <= f x) -> 0 < d -> integral f a b d -> integral (moment f) a b m -> a <= m / d <= b.
Proof.
  intros L N D I M. pose proof (scaled f a a b d I) as A. pose proof (scaled f b a b d I) as B.
  assert (0 + a * d <= m). { apply (integral_le (fun x => 0 + a * f x) (moment f) a b); [exact L| |exact A|exact M]. intros x Hx. unfold moment. specialize (N x Hx). nra. }
  assert (m <= 0 + b * d). { apply (integral_le (moment f) (fun x => 0 + b * f x) a b); [exact L| |exact M|exact B]. intros x Hx. unfold moment. specialize (N x Hx). nra. }
  split; apply Rmult_le_reg_r with d; auto; replace (m / d * d) with m by (field; lra); lra.
Qed.
Lemma cont_moment f x : continuity_pt f x -> continuity_pt (moment f) x.
Proof. intros C. apply (continuity_pt_mult id f); [apply derivable_continuous_pt, derivable_pt_id|exact C]. Qed.
Lemma mean_inside f a b d m : a < b -> (forall x, a < x < b -> 0 < f x) -> (forall x, a < x < b -> continuity_pt f x) -> integral f a b d -> integral (moment f) a b m -> 0 < d /\ a < m / d < b.
Proof.
  intros L P C I M. set (c := (a + b) / 2). assert (Hc : a < c < b) by (unfold c; lra).
  assert (D : 0 < d) by (apply (integral_pos f a b c d); auto; intros x Hx; left; auto). split; [exact D|].
  assert (A : 0 < m + (- a) * d).
  { apply (integral_pos (fun x => moment f x + (- a) * f x) a b c); auto.
    - intros x Hx. unfold moment. specialize (P x Hx). nra.
    - unfold moment. specialize (P c Hc). nra.
    - apply (continuity_pt_plus (moment f) (fun x => - a * f x)); [apply cont_moment; auto|]. apply (continuity_pt_scal f (- a)). auto.
    - apply integral_lin; auto. }
  assert (B : 0 < 0 + b * d + (-1) * m).
  { apply (integral_pos (fun x => 0 + b * f x + (-1) * moment f x) a b c); auto.
    - intros x Hx. unfold moment. specialize (P x Hx). nra.
    - unfold moment. specialize (P c Hc). nra.
    - apply (continuity_pt_plus (fun x => 0 + b * f x) (fun x => (-1) * moment f x)).
      + apply (continuity_pt_plus (fun _ => 0) (fun x => b * f x)); [apply continuity_pt_const; intros ? ?; reflexivity|]. apply (continuity_pt_scal f b). auto.
      + apply (continuity_pt_scal (moment f) (-1)). apply cont_moment; auto.
    - apply integral_lin; [apply scaled; exact I|exact M]. }
  split; apply Rmult_lt_reg_r with d; auto; replace (m / d * d) with m by (field; lra); lra.
Qed.

(** ** The loop *)
Lemma space_pairs a b n : removelast (linspace a b (S n)) = map (cut a b n) (seq 0 n) /\ tl (linspace a b (S n)) = map (fun i => cut a b n (S i)) (seq 0 n).
Proof.
  unfold linspace. replace (S n - 1)%nat with n by lia. split.
  - rewrite seq_S, map_app, Nat.add_0_l. cbn [map]. apply removelast_last.
  - cbn [seq map tl]. rewrite <- seq_shift, map_map. reflexivity.
Qed.

Lemma map2_spec {A B C} (f : A -> B -> res C) (g : nat -> A) (h : nat -> B) n k :
  match map2 f (map g (seq k n)) (map h (seq k n)) with
  | Ok l => length l = n /\ forall i, (i < n)%nat -> exists z, nth_error l i = Some z /\ f (g (k + i)%nat) (h (k + i)%nat) = Ok z
  | Raise e => exists i, (i < n)%nat /\ f (g (k + i)%nat) (h (k + i)%nat) = Raise e
  end.
Proof.
  revert k. induction n as [|n IH]; intros k; cbn [seq map map2]; [split; [reflexivity|intros; lia]|].
  destruct (f (g k) (h k)) as [z|e] eqn:E; cbn [bind].
  - specialize (IH (S k)). destruct (map2 _ _ _) as [l|e]; cbn [bind].
    + destruct IH as (L & H). split; [cbn; lia|]. intros [|i] Hi; [exists z; rewrite Nat.add_0_r; auto|]. destruct (H i ltac:(lia)) as (y & Y). exists y. replace (k + S i)%nat with (S k + i)%nat by lia. exact Y.
    + destruct IH as (i & Hi & H). exists (S i). split; [lia|]. replace (k + S i)%nat with (S k + i)%nat by lia. exact H.
  - exists O. split; [lia|]. rewrite Nat.add_0_r. exact E.
Qed.

Lemma cut_bounds a b n i : a <= b -> (i <= n)%nat -> a <= cut a b n i <= b.
Proof.
  intros L Hi. unfold cut. destruct n as [|n]; [replace i with O by lia; cbn [INR]; lra|].
  assert (P : 0 < INR (S n)) by (apply lt_0_INR; lia). assert (Q : 0 <= INR i <= INR (S n)) by (split; [apply pos_INR|apply le_INR; lia]).
  assert (D : 0 <= (b - a) / INR (S n)) by (apply Rmult_le_pos; [lra|left; now apply Rinv_0_lt_compat]).
  assert (E : INR (S n) * ((b - a) / INR (S n)) = b - a) by (field; lra).
  set (h := (b - a) / INR (S n)) in *. split; [nra|]. assert (INR i * h <= INR (S n) * h) by (apply Rmult_le_compat_r; lra). lra.
Qed.
Lemma cut_step a b n i : cut a b n (S i) = cut a b n i + (b - a) / INR n.
Proof. unfold cut. rewrite S_INR. ring. Qed.
Lemma cut_le a b n i : a <= b -> cut a b n i <= cut a b n (S i).
Proof.
  intros L. rewrite cut_step. destruct n; [unfold Rdiv; cbn [INR]; rewrite Rinv_0; lra|]. assert (P : 0 < INR (S n)) by (apply lt_0_INR; lia).
  assert (D : 0 <= (b - a) / INR (S n)) by (apply Rmult_le_pos; [lra|left; now apply Rinv_0_lt_compat]). lra.
Qed.
Lemma cut_lt a b n i : a < b -> (0 < n)%nat -> cut a b n i < cut a b n (S i).
Proof. intros L H. rewrite cut_step. assert (P : 0 < INR n) by (apply lt_0_INR; lia). assert (0 < (b - a) / INR n) by (apply Rmult_lt_0_compat; [lra|now apply Rinv_0_lt_compat]). lra. Qed.
Lemma cut_0 a b n : cut a b n 0 = a. Proof. unfold cut. cbn [INR]. ring. Qed.
Lemma cut_n a b n : (0 < n)%nat -> cut a b n n = b.
Proof. intros H. unfold cut. assert (P : 0 < INR n) by (apply lt_0_INR; lia). field. lra. Qed.

Lemma integral_cuts f a b n (v : nat -> R) k : (forall i, (i < k)%nat -> integral f (cut a b n i) (cut a b n (S i)) (v i)) -> integral f a (cut a b n k) (total (map v (seq 0 k))).
Proof.
  induction k as [|k IH]; intros H; [cbn [seq map total]; rewrite cut_0; apply integral_refl|].
  rewrite seq_S, map_app, Nat.add_0_l. cbn [map].
  replace (total (map v (seq 0 k) ++ [v k])) with (total (map v (seq 0 k)) + v k); [apply (integral_add f a (cut a b n k)); auto|].
  generalize (map v (seq 0 k)). induction l as [|x l IHl]; cbn [app total]; [lra|]. rewrite <- IHl. ring.
Qed.

Lemma disc_eq q J stop start n : linear_discretization q J stop (Z.of_nat n) start = map2 (direct_quad q J) (map (cut start stop n) (seq 0 n)) (map (fun i => cut start stop n (S i)) (seq 0 n)).
Proof.
  unfold linear_discretization, linspace_z. replace (Z.of_nat n + 1)%Z with (Z.of_nat (S n)) by lia. destruct (Z.ltb_spec (Z.of_nat (S n)) 0); [lia|]. rewrite Nat2Z.id. cbn [bind].
  destruct (space_pairs start stop n) as (-> & ->). reflexivity.
Qed.
