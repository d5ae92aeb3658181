(** Proofs: continued fractions of the Bose and Fermi functions, eigenvalues of their tridiagonal matrices. *)
From Coq Require Import List Arith Lia Reals Lra Bool.
From Verif Require Import CorrX_Spec CorrX_Proof Pade_Spec.
Import ListNotations.
Local Open Scope R_scope.

(** ** Polynomials *)
Fixpoint pol (l : list R) (x : R) : R := match l with [] => 0 | a :: l => a + x * pol l x end.
Fixpoint padd (l m : list R) : list R := match l, m with [], m => m | l, [] => l | a :: l, b :: m => (a + b) :: padd l m end.
Lemma pol_add l : forall m x, pol (padd l m) x = pol l x + pol m x.
Proof. induction l as [|a l IH]; intros [|b m] x; cbn [padd pol]; try ring. rewrite IH. ring. Qed.
Lemma pol_scal c l x : pol (map (Rmult c) l) x = c * pol l x.
Proof. induction l as [|a l IH]; cbn [map pol]; [ring|]. rewrite IH. ring. Qed.
Lemma padd_nth l : forall m d, nth d (padd l m) 0 = nth d l 0 + nth d m 0.
Proof. induction l as [|a l IH]; intros [|b m] [|d]; cbn [padd nth]; try ring. apply IH. Qed.
Lemma padd_len l : forall m, length (padd l m) = Nat.max (length l) (length m).
Proof. induction l as [|a l IH]; intros [|b m]; cbn [padd length]; try reflexivity. rewrite IH. reflexivity. Qed.
Lemma scal_nth c l d : nth d (map (Rmult c) l) 0 = c * nth d l 0.
Proof. revert d. induction l as [|a l IH]; intros [|d]; cbn [map nth]; try ring. apply IH. Qed.

(** [f] is a polynomial of degree at most [d] whose coefficient of [x^d] is [c] *)
Definition deg (d : nat) (c : R) (f : R -> R) : Prop := exists l, length l = S d /\ nth d l 0 = c /\ forall x, f x = pol l x.
Lemma deg_const c : deg 0 c (fun _ => c).
Proof. exists [c]. cbn. repeat split. intros. ring. Qed.
Lemma deg_scal d c f k : deg d c f -> deg d (k * c) (fun x => k * f x).
Proof. intros (l & L & N & E). exists (map (Rmult k) l). rewrite map_length. split; [auto|]. split; [rewrite scal_nth, N; reflexivity|]. intros x. rewrite pol_scal, E. reflexivity. Qed.
Lemma deg_add d c f c' g : deg d c f -> deg d c' g -> deg d (c + c') (fun x => f x + g x).
Proof.
  intros (l & L & N & E) (l' & L' & N' & E'). exists (padd l l'). rewrite padd_len, L, L'. split; [lia|]. split; [rewrite padd_nth; congruence|].
  intros x. rewrite pol_add, E, E'. reflexivity.
Qed.
Lemma deg_x d c f : deg d c f -> deg (S d) c (fun x => x * f x).
Proof. intros (l & L & N & E). exists (0 :: l). cbn [length nth pol]. split; [auto|]. split; [auto|]. intros x. rewrite E. ring. Qed.
Lemma deg_up d c f : deg d c f -> deg (S d) 0 f.
Proof.
  intros (l & L & N & E). exists (l ++ [0]). rewrite app_length. cbn [length]. split; [lia|]. split; [rewrite app_nth2 by lia; rewrite L, Nat.sub_diag; reflexivity|].
  intros x. rewrite E. clear. induction l as [|a l IH]; cbn [app pol]; [ring|]. rewrite IH. reflexivity.
Qed.
Lemma deg_ext d c f g : (forall x, f x = g x) -> deg d c f -> deg d c g.
Proof. intros H (l & L & N & E). exists l. split; [auto|]. split; [auto|]. intros x. rewrite <- H. apply E. Qed.
(** A linear factor *)
Lemma pol_divide l r : exists q, length q = pred (length l) /\ (forall d, length l = S (S d) -> nth d q 0 = nth (S d) l 0) /\ forall x, pol l x = pol l r + (x - r) * pol q x.
Proof.
  induction l as [|a l (q & L & N & E)].
  - exists []. cbn. repeat split; [intros; lia|]. intros. ring.
  - exists (padd l (map (Rmult r) q)). rewrite padd_len, map_length. split; [cbn [length]; lia|]. split.
    + intros d Hd. cbn [length] in Hd. rewrite padd_nth, scal_nth. cbn [nth]. rewrite (nth_overflow q) by lia. ring.
    + intros x. cbn [pol]. rewrite pol_add, pol_scal. rewrite (E x). ring.
Qed.
Lemma deg_divide d c f r : deg (S d) c f -> f r = 0 -> exists g, deg d c g /\ forall x, f x = (x - r) * g x.
Proof.
  intros (l & L & N & E) Z. destruct (pol_divide l r) as (q & Lq & Nq & Eq). exists (pol q). split.
  - exists q. split; [lia|]. split; [rewrite (Nq d) by lia; exact N|reflexivity].
  - intros x. rewrite E, Eq, <- (E r), Z. ring.
Qed.
Lemma deg_roots rs : forall d c f, length rs = d -> NoDup rs -> (forall r, In r rs -> f r = 0) -> deg d c f ->
  forall x, f x = c * fold_right (fun r p => (x - r) * p) 1 rs.
Proof.
  induction rs as [|r rs IH]; intros d c f L ND Z D x.
  - cbn in L. subst d. destruct D as (l & L & N & E). destruct l as [|a [|b l]]; cbn [length] in L; try lia. rewrite E. cbn in *. rewrite N. ring.
  - cbn [length] in L. destruct d as [|d]; [lia|]. inversion ND as [|? ? NI ND']; subst. destruct (deg_divide d c f r D) as (g & Dg & Eg); [apply Z; left; reflexivity|].
    assert (Zg : forall s, In s rs -> g s = 0).
    { intros s Hs. pose proof (Z s (or_intror Hs)) as Zs. rewrite Eg in Zs. apply Rmult_integral in Zs. destruct Zs as [Zs|Zs]; [|exact Zs]. exfalso. apply NI. replace r with s by lra. exact Hs. }
    rewrite Eg. rewrite (IH d c g ltac:(lia) ND' Zg Dg x).
    cbn [fold_right]. ring.
Qed.
Lemma deg_few rs d c f : c <> 0 -> length rs = S d -> NoDup rs -> (forall r, In r rs -> f r = 0) -> deg d c f -> False.
Proof.
  intros C0 L ND Z D. destruct rs as [|r rs]; [cbn in L; lia|]. cbn in L. inversion ND as [|? ? NI ND']; subst.
  assert (E : f r = c * fold_right (fun s p => (r - s) * p) 1 rs) by (apply (deg_roots rs d c f); [lia|exact ND'|intros s Hs; apply Z; right; exact Hs|exact D]).
  rewrite (Z r (or_introl eq_refl)) in E. symmetry in E. apply Rmult_integral in E. destruct E as [E|E]; [auto|]. clear - E NI.
  induction rs as [|s rs IH]; cbn [fold_right] in E; [lra|]. apply Rmult_integral in E. destruct E as [E|E]; [apply NI; left; lra|]. apply IH; [|exact E]. intros H. apply NI. right. exact H.
Qed.

(** ** Continuants *)
Fixpoint cont2 (a t : R) (M : nat) : R * R := match M with O => (1, 0) | S M => let (v, w) := cont2 a t M in ((a + 2 * INR M) * v + t * w, v) end.
Definition cont (a t : R) (M : nat) : R := fst (cont2 a t M).
Lemma cont_0 a t : cont a t 0 = 1. Proof. reflexivity. Qed.
Lemma cont_1 a t : cont a t 1 = a. Proof. unfold cont. cbn. ring. Qed.
Lemma cont_snd a t M : snd (cont2 a t (S M)) = cont a t M.
Proof. unfold cont. cbn [cont2]. destruct (cont2 a t M). reflexivity. Qed.
Lemma cont_SS a t M : cont a t (S (S M)) = (a + 2 * INR (S M)) * cont a t (S M) + t * cont a t M.
Proof. unfold cont at 1. cbn [cont2]. rewrite <- (cont_snd a t M). unfold cont. change (let (v, w) := cont2 a t M in ((a + 2 * INR M) * v + t * w, v)) with (cont2 a t (S M)). destruct (cont2 a t (S M)). reflexivity. Qed.
(** From the other end *)
Lemma cont_front a t M : cont a t (S (S M)) = a * cont (a + 2) t (S M) + t * cont (a + 4) t M.
Proof.
  enough (H : cont a t (S (S M)) = a * cont (a + 2) t (S M) + t * cont (a + 4) t M /\ cont a t (S (S (S M))) = a * cont (a + 2) t (S (S M)) + t * cont (a + 4) t (S M)) by apply H.
  induction M as [|M (H1 & H2)].
  - rewrite !cont_SS, !cont_1, !cont_0. cbn [INR]. split; ring.
  - split; [exact H2|]. rewrite cont_SS, H2, H1. rewrite (cont_SS (a + 2) t (S M)), (cont_SS (a + 4) t M). rewrite !S_INR. ring.
Qed.
Lemma odds_S a M : odds a (S M) = odds a M * (a + 2 * INR M). Proof. reflexivity. Qed.
Lemma odds_pos a M : 0 < a -> 0 < odds a M.
Proof. intros Ha. induction M as [|M IH]; [cbn; lra|]. rewrite odds_S. pose proof (pos_INR M). apply Rmult_lt_0_compat; lra. Qed.
Lemma cont_ge a t M : 0 < a -> 0 <= t -> odds a M <= cont a t M /\ odds a (S M) <= cont a t (S M).
Proof.
  intros Ha Ht. induction M as [|M (H1 & H2)].
  - rewrite odds_S. unfold odds. cbn [Rprod INR]. rewrite cont_1, cont_0. lra.
  - split; [exact H2|]. rewrite cont_SS, odds_S. pose proof (pos_INR (S M)). pose proof (odds_pos a M Ha). assert (0 <= t * cont a t M) by (apply Rmult_le_pos; lra). assert (odds a (S M) * (a + 2 * INR (S M)) <= cont a t (S M) * (a + 2 * INR (S M))) by (apply Rmult_le_compat_r; lra). lra.
Qed.
Lemma cont_pos a t M : 0 < a -> 0 <= t -> 0 < cont a t M.
Proof. intros Ha Ht. pose proof (odds_pos a M Ha). pose proof (cont_ge a t M Ha Ht). lra. Qed.
Lemma frac_cont M : forall a t, 0 < a -> 0 <= t -> frac a (S M) t = cont (a + 2) t M / cont a t (S M).
Proof.
  induction M as [|M IH]; intros a t Ha Ht.
  - cbn [frac]. rewrite cont_1, cont_0. field. lra.
  - change (frac a (S (S M)) t) with (1 / (a + t * frac (a + 2) (S M) t)). rewrite IH by lra. rewrite (cont_front a t M). replace (a + 2 + 2) with (a + 4) by ring.
    pose proof (cont_pos (a + 2) t (S M) ltac:(lra) Ht) as P1. pose proof (cont_pos (a + 4) t M ltac:(lra) Ht) as P2.
    assert (0 <= t * cont (a + 4) t M) by (apply Rmult_le_pos; lra). assert (0 < a * cont (a + 2) t (S M)) by (apply Rmult_lt_0_compat; lra).
    field. split; lra.
Qed.
(** The cut-off part *)
Lemma cont_rest a t (g : nat -> R) : (forall m, g m = (a + 2 * INR m) * g (S m) + t * g (S (S m))) ->
  forall M, cont a t (S M) * g 1%nat - cont (a + 2) t M * g 0%nat = (- t) ^ S M * g (S (S M)).
Proof.
  intros G M. enough (H : cont a t (S M) * g 1%nat - cont (a + 2) t M * g 0%nat = (- t) ^ S M * g (S (S M)) /\ cont a t (S (S M)) * g 1%nat - cont (a + 2) t (S M) * g 0%nat = (- t) ^ S (S M) * g (S (S (S M)))) by apply H.
  induction M as [|M (H1 & H2)].
  - rewrite cont_SS, !cont_1, !cont_0. rewrite (G 0%nat), (G 1%nat). cbn [INR pow]. split; ring.
  - split; [exact H2|]. rewrite (cont_SS a t (S M)), (cont_SS (a + 2) t M).
    transitivity ((a + 2 * INR (S (S M))) * (cont a t (S (S M)) * g 1%nat - cont (a + 2) t (S M) * g 0%nat) + t * (cont a t (S M) * g 1%nat - cont (a + 2) t M * g 0%nat)).
    { rewrite !S_INR. ring. }
    rewrite H1, H2. rewrite (G (S (S M))). cbn [pow]. ring.
Qed.
Lemma rest_small a t (g : nat -> R) : 0 < a -> 0 <= t -> (forall m, 0 <= g m) -> (forall m, g m = (a + 2 * INR m) * g (S m) + t * g (S (S m))) ->
  forall M, odds a M * g M <= g 0%nat.
Proof.
  intros Ha Ht P G M. induction M as [|M IH]; [unfold odds; cbn [Rprod]; lra|]. rewrite odds_S. pose proof (odds_pos a M Ha). assert (odds a M * ((a + 2 * INR M) * g (S M)) <= odds a M * g M).
  { apply Rmult_le_compat_l; [lra|]. rewrite (G M). assert (0 <= t * g (S (S M))) by (apply Rmult_le_pos; auto). lra. }
  lra.
Qed.
Lemma frac_error a t (g : nat -> R) : 0 < a -> 0 <= t -> (forall m, 0 <= g m) -> 0 < g 0%nat -> (forall m, g m = (a + 2 * INR m) * g (S m) + t * g (S (S m))) ->
  forall M, Rabs (g 1%nat / g 0%nat - frac a M t) <= t ^ M / (odds a M * odds a (S M)).
Proof.
  intros Ha Ht P P0 G M. pose proof (odds_pos a M Ha) as O1. pose proof (odds_pos a (S M) Ha) as O2. pose proof (rest_small a t g Ha Ht P G (S M)) as RS.
  assert (GS : g (S M) / g 0%nat <= / odds a (S M)).
  { apply Rmult_le_reg_r with (odds a (S M) * g 0%nat); [apply Rmult_lt_0_compat; lra|]. replace (g (S M) / g 0%nat * (odds a (S M) * g 0%nat)) with (odds a (S M) * g (S M)) by (field; lra). replace (/ odds a (S M) * (odds a (S M) * g 0%nat)) with (g 0%nat) by (field; lra). exact RS. }
  destruct M as [|M].
  - cbn [frac pow]. rewrite Rminus_0_r, Rabs_right; [|apply Rle_ge; apply Rmult_le_pos; [apply P|left; apply Rinv_0_lt_compat; exact P0]]. unfold odds at 1. cbn [Rprod]. replace (1 / (1 * odds a 1)) with (/ odds a 1) by (field; lra). exact GS.
  - rewrite frac_cont by auto. pose proof (cont_pos a t (S M) Ha Ht) as C1. pose proof (proj1 (cont_ge a t (S M) Ha Ht)) as C2.
    replace (g 1%nat / g 0%nat - cont (a + 2) t M / cont a t (S M)) with ((cont a t (S M) * g 1%nat - cont (a + 2) t M * g 0%nat) / (cont a t (S M) * g 0%nat)) by (field; lra).
    rewrite cont_rest by auto. replace ((- t) ^ S M * g (S (S M)) / (cont a t (S M) * g 0%nat)) with ((- t) ^ S M * (/ cont a t (S M) * (g (S (S M)) / g 0%nat))) by (field; lra).
    rewrite Rabs_mult, <- RPow_abs, Rabs_Ropp, (Rabs_right t) by lra. unfold Rdiv at 2. apply Rmult_le_compat_l; [apply pow_le; lra|].
    assert (GP : 0 <= g (S (S M)) / g 0%nat) by (apply Rmult_le_pos; [apply P|left; apply Rinv_0_lt_compat; exact P0]).
    rewrite Rabs_right; [|apply Rle_ge; apply Rmult_le_pos; [left; apply Rinv_0_lt_compat; exact C1|exact GP]]. rewrite Rinv_mult. apply Rmult_le_compat; [left; apply Rinv_0_lt_compat; exact C1|exact GP| |exact GS]. apply Rinv_le_contravar; auto.
Qed.
