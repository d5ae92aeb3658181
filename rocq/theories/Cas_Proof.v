(** Matrices by integration. *)
From Coq Require Import List Arith Bool Reals Lra Lia.
From Verif Require Import Py Alg ListX Ord NdArray_Model NdArray_Proof Dvr_Model Dvr_Spec Dvr_Proof Dvr3_Proof Discretise_Spec Discretise_Proof Discretise_Prop Cas_Model Cas_Spec.
Import ListNotations.
Local Open Scope R_scope.

Lemma put_square n A f i j v : square (K := R_star) n A f -> square n (put A i j v) (fun p q => if ((p =? i)%nat && (q =? j)%nat)%bool then v else f p q).
Proof.
  intros (W & S & G). unfold put. rewrite S. split; [apply wf_build|]. split; [reflexivity|]. intros p q Hp Hq. rewrite get_sq by auto. cbn [nth]. destruct ((p =? i)%nat && (q =? j)%nat)%bool; auto.
Qed.
Fixpoint mem (x : nat) (l : list nat) : bool := match l with [] => false | y :: l => ((x =? y)%nat || mem x l)%bool end.
Lemma mem_seq x n : mem x (seq 0 n) = (x <? n)%nat.
Proof.
  assert (Q : forall s, mem x (seq s n) = ((s <=? x)%nat && (x <? s + n)%nat)%bool).
  { induction n as [|n IH]; intros s; cbn [seq mem].
    - destruct (Nat.leb_spec s x), (Nat.ltb_spec x (s + 0)); auto; lia.
    - rewrite IH. destruct (Nat.eqb_spec x s), (Nat.leb_spec (S s) x), (Nat.leb_spec s x), (Nat.ltb_spec x (S s + n)), (Nat.ltb_spec x (s + S n)); cbn; auto; lia. }
  rewrite Q. destruct (x <? 0 + n)%nat eqn:E; cbn in *; now rewrite E.
Qed.

Section Repr.
Variable sym_int : expr -> option (R * R) -> R.
Variable quad : expr -> R -> R -> nat -> R.
Variable op : expr -> expr.
Variable basis : list expr.
Variable cut_off : option (R * R).
Variable num_prec : option nat.
Notation mel i j := (matrix_element sym_int quad (at_ basis i) op (at_ basis j) cut_off num_prec).
Lemma row_ok n i js : forall A f, square (K := R_star) n A f ->
  square n (row_loop sym_int quad op basis cut_off num_prec i js A) (fun p q => if ((p =? i)%nat && mem q js)%bool then mel i q else if ((q =? i)%nat && mem p js)%bool then mel i p else f p q).
Proof.
  induction js as [|j js IH]; intros A f HA.
  - cbn [row_loop mem]. apply (square_ext n A f); auto. intros p q _ _. now rewrite !andb_false_r.
  - cbn [row_loop]. apply (put_square n A f i j (mel i j)) in HA. apply (put_square n _ _ j i (mel i j)) in HA. apply IH in HA. refine (square_ext _ _ _ _ HA _). intros p q _ _. cbn [mem].
    destruct (Nat.eqb_spec p i), (Nat.eqb_spec q j), (Nat.eqb_spec q i), (Nat.eqb_spec p j); subst; cbn [andb orb]; try reflexivity; try congruence;
    repeat match goal with |- context [mem ?x ?l] => destruct (mem x l) end; try reflexivity; try congruence.
Qed.
Lemma rows_ok n k : forall s A f, square (K := R_star) n A f ->
  square n (rows_loop sym_int quad op basis cut_off num_prec (seq s k) A) (fun p q => if ((s <=? Nat.max p q)%nat && (Nat.max p q <? s + k)%nat)%bool then mel (Nat.max p q) (Nat.min p q) else f p q).
Proof.
  induction k as [|k IH]; intros s A f HA.
  - cbn [seq rows_loop]. apply (square_ext n A f); auto. intros p q _ _. destruct (Nat.leb_spec s (Nat.max p q)), (Nat.ltb_spec (Nat.max p q) (s + 0)); cbn; auto; lia.
  - cbn [seq rows_loop]. apply (row_ok n s (seq 0 (s + 1))) in HA. apply (IH (S s)) in HA. refine (square_ext _ _ _ _ HA _). intros p q _ _. rewrite !mem_seq.
    destruct (Nat.leb_spec (S s) (Nat.max p q)), (Nat.ltb_spec (Nat.max p q) (S s + k)), (Nat.leb_spec s (Nat.max p q)), (Nat.ltb_spec (Nat.max p q) (s + S k)); cbn [andb]; try lia; auto;
    destruct (Nat.eqb_spec p s), (Nat.eqb_spec q s), (Nat.ltb_spec q (s + 1)), (Nat.ltb_spec p (s + 1)); cbn [andb]; try lia; auto; subst; repeat f_equal; try lia.
    all: try (rewrite Nat.max_l, Nat.min_r by lia; reflexivity). all: try (rewrite Nat.max_r, Nat.min_l by lia; reflexivity).
Qed.
Lemma repr_ok : square (K := R_star) (length basis) (matrix_repr sym_int quad op basis cut_off num_prec) (fun p q => mel (Nat.max p q) (Nat.min p q)).
Proof.
  assert (Z : square (K := R_star) (length basis) (zeros [length basis; length basis]) (fun _ _ => 0)) by (apply (square_build (length basis) (fun _ _ => 0 : R_star))).
  apply (rows_ok (length basis) (length basis) 0) in Z. unfold matrix_repr. refine (square_ext _ _ _ _ Z _). intros p q Hp Hq.
  destruct (Nat.leb_spec 0 (Nat.max p q)), (Nat.ltb_spec (Nat.max p q) (0 + length basis)); cbn [andb]; auto; lia.
Qed.
End Repr.

Lemma does_value sym_int quad num_prec f g a b : does sym_int quad num_prec (fun x => f x * g x) a b ->
  integral (fun x => f x * g x) a b (matrix_element sym_int quad f (fun _ => g) g (Some (a, b)) num_prec).
Proof. unfold does, matrix_element. destruct num_prec; auto. Qed.

Lemma twice_cont f f' f'' x : twice f f' f'' -> continuity_pt f x /\ continuity_pt f' x /\ continuity_pt f'' x.
Proof. intros T. destruct (T x) as (A & B & C). split; [apply derivable_continuous_pt; exists (f' x); exact A|]. split; [apply derivable_continuous_pt; exists (f'' x); exact B|exact C]. Qed.
(** [f g'' - g f''] integrates to the difference of [f g' - f' g] at the ends. *)
Lemma parts2 f f' f'' g g' g'' a b u v : a <= b -> twice f f' f'' -> twice g g' g'' ->
  integral (fun x => f x * g'' x) a b u -> integral (fun x => g x * f'' x) a b v -> u - v = (f b * g' b - f' b * g b) - (f a * g' a - f' a * g a).
Proof.
  intros L F G U V.
  assert (W : integral (fun x => f x * g'' x + -1 * (g x * f'' x)) a b ((f b * g' b - f' b * g b) - (f a * g' a - f' a * g a))).
  { apply (integral_primitive (fun x => f x * g' x - f' x * g x)); auto.
    - intros x. destruct (F x) as (F1 & F2 & _). destruct (G x) as (G1 & G2 & _).
      replace (f x * g'' x + -1 * (g x * f'' x)) with ((f' x * g' x + f x * g'' x) - (f'' x * g x + f' x * g' x)) by ring.
      apply (derivable_pt_lim_minus (fun x => f x * g' x) (fun x => f' x * g x)); [apply (derivable_pt_lim_mult f g'); auto|apply (derivable_pt_lim_mult f' g); auto].
    - intros x. destruct (twice_cont f f' f'' x F) as (c1 & c2 & c3). destruct (twice_cont g g' g'' x G) as (d1 & d2 & d3).
      apply (continuity_pt_plus (fun x => f x * g'' x) (fun x => -1 * (g x * f'' x))); [apply (continuity_pt_mult f g''); auto|].
      apply (continuity_pt_scal (fun x => g x * f'' x)). apply (continuity_pt_mult g f''); auto. }
  pose proof (integral_unique _ _ _ _ _ W (integral_lin _ _ (-1) _ _ _ _ U V)). lra.
Qed.
Lemma parts1 f f' g g' a b u v : a <= b -> (forall x, derivable_pt_lim f x (f' x) /\ continuity_pt f' x) -> (forall x, derivable_pt_lim g x (g' x) /\ continuity_pt g' x) ->
  integral (fun x => f x * g' x) a b u -> integral (fun x => g x * f' x) a b v -> u + v = f b * g b - f a * g a.
Proof.
  intros L F G U V.
  assert (CF : forall x, continuity_pt f x) by (intros x; apply derivable_continuous_pt; exists (f' x); apply F).
  assert (CG : forall x, continuity_pt g x) by (intros x; apply derivable_continuous_pt; exists (g' x); apply G).
  assert (W : integral (fun x => f x * g' x + 1 * (g x * f' x)) a b (f b * g b - f a * g a)).
  { apply (integral_primitive (fun x => f x * g x)); auto.
    - intros x. replace (f x * g' x + 1 * (g x * f' x)) with (f' x * g x + f x * g' x) by ring. apply (derivable_pt_lim_mult f g); [apply F|apply G].
    - intros x. apply (continuity_pt_plus (fun x => f x * g' x) (fun x => 1 * (g x * f' x))); [apply (continuity_pt_mult f g'); auto; apply G|].
      apply (continuity_pt_scal (fun x => g x * f' x)). apply (continuity_pt_mult g f'); auto; apply F. }
  pose proof (integral_unique _ _ _ _ _ W (integral_lin _ _ 1 _ _ _ _ U V)). lra.
Qed.

Section Orth.
Context (K : StarRing).
Add Ring Kr : (r_theory K).
Local Open Scope star_scope.
Variable n : nat.
Variable u : nat -> nat -> K.
Hypothesis cols : forall k l, (k < n)%nat -> (l < n)%nat -> sumn n (fun i => u i k * u i l) = delta k l.
Hypothesis rows : forall i j, (i < n)%nat -> (j < n)%nat -> sumn n (fun k => u i k * u j k) = delta i j.
Lemma rows_twice (f : nat -> K) i : (i < n)%nat -> sumn n (fun k => u i k * sumn n (fun p => u p k * f p)) = f i.
Proof.
  intros Hi. rewrite (sumn_ext K n _ (fun k => sumn n (fun p => u i k * u p k * f p))) by (intros; rewrite <- sumn_scal_l; apply sumn_ext; intros; ring).
  rewrite sumn_swap. rewrite (sumn_ext K n _ (fun p => delta i p * f p)) by (intros; rewrite sumn_scal_r, rows by auto; reflexivity). apply delta_sum_l; auto.
Qed.
Lemma back (M : nat -> nat -> K) i j : (i < n)%nat -> (j < n)%nat ->
  sumn n (fun k => u i k * sumn n (fun l => sumn n (fun p => u p k * sumn n (fun q => M p q * u q l)) * u j l)) = M i j.
Proof.
  intros Hi Hj. rewrite <- (rows_twice (fun p => M p j) i Hi). apply sumn_ext. intros k Hk. f_equal.
  rewrite (sumn_ext K n _ (fun l => sumn n (fun p => u p k * (u j l * sumn n (fun q => u q l * M p q))))).
  2:{ intros l Hl. rewrite <- sumn_scal_r. apply sumn_ext. intros p Hp. rewrite (sumn_ext K n (fun q => M p q * u q l) (fun q => u q l * M p q)) by (intros; ring). ring. }
  rewrite sumn_swap. apply sumn_ext. intros p Hp. rewrite sumn_scal_l. f_equal. apply (rows_twice (fun q => M p q) j Hj).
Qed.
Lemma diagonal (Q : nat -> nat -> K) (x : nat -> K) k l : (k < n)%nat -> (l < n)%nat -> (forall p, (p < n)%nat -> sumn n (fun q => Q p q * u q l) = x l * u p l) ->
  sumn n (fun p => u p k * sumn n (fun q => Q p q * u q l)) = delta k l * x l.
Proof.
  intros Hk Hl E. rewrite (sumn_ext K n _ (fun p => u p k * u p l * x l)) by (intros p Hp; rewrite E by auto; ring). rewrite sumn_scal_r, cols by auto. reflexivity.
Qed.
Lemma sym_conj (M : nat -> nat -> K) k l : (k < n)%nat -> (l < n)%nat -> (forall i j, (i < n)%nat -> (j < n)%nat -> M i j = M j i) ->
  sumn n (fun p => u p k * sumn n (fun q => M p q * u q l)) = sumn n (fun p => u p l * sumn n (fun q => M p q * u q k)).
Proof.
  intros Hk Hl S. rewrite (sumn_ext K n _ (fun p => sumn n (fun q => u p k * M p q * u q l))) by (intros; rewrite <- sumn_scal_l; apply sumn_ext; intros; ring).
  rewrite sumn_swap. apply sumn_ext. intros q Hq. rewrite <- sumn_scal_l. apply sumn_ext. intros p Hp. rewrite (S p q) by auto. ring.
Qed.
Lemma vec_cols (v w : nat -> K) : sumn n (fun i => sumn n (fun k => u i k * v k) * sumn n (fun l => u i l * w l)) = sumn n (fun k => v k * w k).
Proof.
  rewrite (sumn_ext K n _ (fun i => sumn n (fun k => v k * (u i k * sumn n (fun l => u i l * w l))))).
  2:{ intros i Hi. rewrite <- sumn_scal_r. apply sumn_ext. intros. ring. }
  rewrite sumn_swap. apply sumn_ext. intros k Hk. rewrite sumn_scal_l. f_equal.
  rewrite (sumn_ext K n _ (fun i => sumn n (fun l => u i k * u i l * w l))) by (intros; rewrite <- sumn_scal_l; apply sumn_ext; intros; ring).
  rewrite sumn_swap. rewrite (sumn_ext K n _ (fun l => delta k l * w l)) by (intros; rewrite sumn_scal_r, cols by auto; reflexivity). apply delta_sum_l; auto.
Qed.
End Orth.

(** integrals of equal functions and of sums *)
Lemma integral_same f g a b v : a <= b -> (forall x, a <= x <= b -> f x = g x) -> integral f a b v -> integral g a b v.
Proof.
  intros L E I. apply (integral_ext f g a b v L); auto; [intros x Hx; apply E; lra|]. destruct I as (pr & _).
  assert (pg : Riemann_integrable g a b).
  { intros eps. destruct (pr eps) as (phi & psi & H1 & H2). exists phi, psi. split; [|exact H2]. intros t Ht. rewrite <- E; [apply H1; exact Ht|]. rewrite Rmin_left, Rmax_right in Ht by exact L. exact Ht. }
  exists (RiemannInt pg), pg. reflexivity.
Qed.
Ltac rring := cbn; match goal with |- @eq _ ?a ?b => change (@eq R a b) end; ring.
Lemma sumn_S_R n (f : nat -> R) : rsum (S n) f = rsum n f + f n.
Proof. rewrite (sumn_S R_star). reflexivity. Qed.
Lemma integral_sum n (c : nat -> R) (g : nat -> R -> R) v a b : a <= b -> (forall i, (i < n)%nat -> integral (g i) a b (v i)) ->
  integral (fun x => rsum n (fun i => c i * g i x)) a b (rsum n (fun i => c i * v i)).
Proof.
  intros L H. induction n as [|n IH].
  - replace (rsum 0 (fun i => c i * v i)) with (0 * (b - a)) by (cbn; ring). apply (integral_same (fun _ => 0)); auto. apply integral_const.
  - rewrite sumn_S_R. apply (integral_same (fun x => rsum n (fun i => c i * g i x) + c n * g n x)); [exact L|intros x _; now rewrite sumn_S_R|].
    apply (integral_lin (fun x => rsum n (fun i => c i * g i x)) (g n)); [apply IH; intros; apply H; lia|apply H; lia].
Qed.
Lemma integral_pair n (f g : nat -> R) (phi : nat -> R -> R) a b : a <= b -> orthonormal a b n phi ->
  integral (fun x => rsum n (fun i => phi i x * f i) * rsum n (fun j => phi j x * g j)) a b (rsum n (fun i => f i * g i)).
Proof.
  intros L O. apply (integral_same (fun x => rsum n (fun i => f i * rsum n (fun j => g j * (phi i x * phi j x))))); [exact L| |].
  - intros x _. rewrite <- (sumn_scal_r R_star). apply (sumn_ext R_star). intros i _. change (@rmul R_star) with Rmult. rewrite <- (sumn_scal_l R_star), <- (sumn_scal_l R_star). apply (sumn_ext R_star). intros j _. change (@rmul R_star) with Rmult. match goal with |- @eq _ ?a ?b => change (@eq R a b) end. ring.
  - replace (rsum n (fun i => f i * g i)) with (rsum n (fun i => f i * rsum n (fun j => g j * (if (i =? j)%nat then 1 else 0)))).
    + apply integral_sum; auto. intros i Hi. apply integral_sum; auto.
    + apply (sumn_ext R_star). intros i Hi. f_equal. rewrite <- (delta_sum_l (K := R_star) n i g Hi). apply (sumn_ext R_star). intros j _. unfold delta. change (@rmul R_star) with Rmult. destruct (i =? j)%nat; rring.
Qed.
Lemma cont_loop_ok basis vec x js : forall psi, (forall j, In j js -> (j < length vec)%nat) ->
  cont_loop basis vec x js psi = Ok (psi + @sumL R_star nat js (fun j => at_ basis j x * nth j vec 0)).
Proof.
  induction js as [|j js IH]; intros psi H; cbn [cont_loop].
  - f_equal. rring.
  - rewrite (nth_error_nth' vec 0) by (apply H; now left). rewrite IH by (intros; apply H; now right). f_equal. rewrite sumL_cons. change (@radd R_star) with Rplus. rewrite Rplus_assoc. reflexivity.
Qed.

(** the box *)
Lemma box_second L x0 j x : derivable_pt_lim (box' L x0 j) x (- (INR j * PI / L) ^ 2 * box L x0 j x).
Proof.
  unfold box. apply (Dvr3_Proof.d_ext (fun x => sqrt (2 / L) * (INR j * PI / L) * cos (INR j * PI / L * (x - x0)))).
  - intros y. unfold box'. f_equal. f_equal. unfold Rdiv. ring.
  - replace (INR j * PI * (x - x0) / L) with (INR j * PI / L * (x - x0)) by (unfold Rdiv; ring).
    replace (- (INR j * PI / L) ^ 2 * (sqrt (2 / L) * sin (INR j * PI / L * (x - x0)))) with (sqrt (2 / L) * (INR j * PI / L) * (- (INR j * PI / L) * sin (INR j * PI / L * (x - x0)))) by ring.
    apply (Dvr3_Proof.d_scal _ (fun x => cos (INR j * PI / L * (x - x0)))). apply Dvr3_Proof.d_cos.
Qed.
Lemma box_twice L x0 j : twice (box L x0 j) (box' L x0 j) (fun x => - (INR j * PI / L) ^ 2 * box L x0 j x).
Proof.
  intros x. split; [apply Dvr3_Proof.box_derivative|]. split; [apply box_second|]. apply (continuity_pt_scal (box L x0 j)). apply derivable_continuous_pt. exists (box' L x0 j x). apply Dvr3_Proof.box_derivative.
Qed.
Lemma box_ends L x0 j : 0 < L -> box L x0 j x0 = 0 /\ box L x0 j (x0 + L) = 0.
Proof.
  intros P. unfold box. split.
  - replace (INR j * PI * (x0 - x0) / L) with 0 by (field; lra). rewrite sin_0. ring.
  - replace (INR j * PI * (x0 + L - x0) / L) with (INR j * PI) by (field; lra). rewrite sin_INR_PI. ring.
Qed.
Lemma box_orthonormal a b n : a < b -> orthonormal a b n (fun j => box (b - a) a (S j)).
Proof.
  intros H i j Hi Hj. set (L := b - a). assert (PL : 0 < L) by (unfold L; lra). pose proof PI_RGT_0 as PP.
  assert (C : forall k x, continuity_pt (box L a k) x) by (intros k x; apply (twice_cont _ _ _ x (box_twice L a k))).
  destruct (box_ends L a (S i) PL) as (A0 & A1). destruct (box_ends L a (S j) PL) as (B0 & B1). replace (a + L) with b in A1, B1 by (unfold L; ring).
  assert (CC : forall p q x, continuity_pt (fun x => box L a p x * box L a q x) x) by (intros; apply (continuity_pt_mult (box L a p) (box L a q)); apply C).
  destruct (Nat.eqb_spec i j) as [->|Ne].
  - set (p := INR (S j)). assert (Pp : 0 < p) by (apply lt_0_INR; lia).
    set (F := fun x => / L * x + - (/ (2 * p * PI)) * sin (2 * p * PI / L * (x - a))).
    replace 1 with (F b - F a).
    2:{ unfold F. replace (2 * p * PI / L * (b - a)) with (INR (2 * S j) * PI) by (rewrite mult_INR; unfold L, p; cbn [INR]; field; lra). replace (2 * p * PI / L * (a - a)) with 0 by ring. rewrite sin_INR_PI, sin_0. unfold L. field. split; [lra|split; lra]. }
    apply (integral_primitive F); [lra| |intros; apply CC]. intros x.
    replace (box L a (S j) x * box L a (S j) x) with (/ L * 1 + - (/ (2 * p * PI)) * (2 * p * PI / L * cos (2 * p * PI / L * (x - a)))).
    + apply (derivable_pt_lim_plus (fun x => / L * x) (fun x => - (/ (2 * p * PI)) * sin (2 * p * PI / L * (x - a)))); [apply Dvr3_Proof.d_scal, derivable_pt_lim_id|apply (Dvr3_Proof.d_scal _ (fun x => sin (2 * p * PI / L * (x - a)))), Dvr3_Proof.d_sin].
    + unfold box. fold p. replace (2 * p * PI / L * (x - a)) with (2 * (p * PI * (x - a) / L)) by (field; lra). rewrite cos_2a_sin. set (s := sin _).
      replace (sqrt (2 / L) * s * (sqrt (2 / L) * s)) with (sqrt (2 / L) * sqrt (2 / L) * (s * s)) by ring. rewrite sqrt_sqrt by (apply Rlt_le, Rdiv_lt_0_compat; lra). field. repeat split; lra.
  - (* the second derivatives have different factors *)
    destruct (integral_cont (fun x => box L a (S i) x * box L a (S j) x) a b) as (v & V); [lra|intros; apply CC|].
    assert (Sc : forall k, integral (fun x => box L a (S i) x * (k * box L a (S j) x)) a b (k * v)).
    { intros k. apply (integral_same (fun x => 0 + k * (box L a (S i) x * box L a (S j) x))); [lra|intros; ring|]. replace (k * v) with (0 + k * v) by ring. apply scaled, V. }
    assert (Sd : forall k, integral (fun x => box L a (S j) x * (k * box L a (S i) x)) a b (k * v)).
    { intros k. apply (integral_same (fun x => 0 + k * (box L a (S i) x * box L a (S j) x))); [lra|intros; ring|]. replace (k * v) with (0 + k * v) by ring. apply scaled, V. }
    pose proof (parts2 _ _ _ _ _ _ a b _ _ (Rlt_le _ _ H) (box_twice L a (S i)) (box_twice L a (S j)) (Sc _) (Sd _)) as Q. rewrite A0, A1, B0, B1 in Q.
    assert (Z : v = 0).
    { set (p := INR (S i)) in *. set (q := INR (S j)) in *. assert (Pp : 0 < p) by (apply lt_0_INR; lia). assert (Pq : 0 < q) by (apply lt_0_INR; lia).
      assert (Npq : p <> q) by (intros E; apply INR_eq in E; lia).
      assert (Z : (PI / L) ^ 2 * ((p + q) * (p - q)) * v = 0) by (replace ((PI / L) ^ 2 * ((p + q) * (p - q)) * v) with (- (q * PI / L) ^ 2 * v - - (p * PI / L) ^ 2 * v) by (field; lra); rewrite Q; ring).
      apply Rmult_integral in Z as [Z|Z]; auto. apply Rmult_integral in Z as [Z|Z]; [apply (pow_nonzero _ 2) in Z; [destruct Z|apply Rgt_not_eq, Rdiv_lt_0_compat; lra]|]. apply Rmult_integral in Z as [Z|Z]; lra. }
    rewrite Z in V. exact V.
Qed.
