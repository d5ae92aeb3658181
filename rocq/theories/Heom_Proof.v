(** Lemmas on the generators of the hierarchy. *)
From Coq Require Import List Arith Bool Lia Ring.
From Verif Require Import Py Alg ListX NdArray_Model NdArray_Proof Contract_Model Contract_Spec Contract_Proof Mode_Proof
  Heom_Model Heom_Spec.
Import ListNotations.
Local Open Scope nat_scope.
Local Open Scope py_scope.

Lemma inside_iff n dims : inside n dims = true <-> in_range n dims.
Proof.
  revert dims. induction n as [|x n IH]; intros [|d dims]; cbn; split; intros H; try discriminate H; try constructor; try solve [inversion H].
  - apply andb_prop in H as (H1 & H2). apply Nat.ltb_lt; auto.
  - apply andb_prop in H as (H1 & H2). apply IH; auto.
  - inversion H as [|? ? ? ? H1 H2]. apply andb_true_intro. split; [apply Nat.ltb_lt; auto|apply IH; auto].
Qed.

Lemma upd_app_l {A} k (x : A) l l' : k < length l -> upd k x (l ++ l') = upd k x l ++ l'.
Proof.
  intros H. unfold upd. rewrite app_length. replace (k <? length l + length l') with true by (symmetry; apply Nat.ltb_lt; lia).
  replace (k <? length l) with true by (symmetry; apply Nat.ltb_lt; lia).
  rewrite firstn_app, skipn_app. replace (k - length l) with 0 by lia. replace (S k - length l) with 0 by lia. cbn [firstn skipn].
  rewrite app_nil_r, <- app_assoc. reflexivity.
Qed.

Lemma map_res_ok {A B} (f : A -> res B) (P : A -> B -> Prop) l : (forall x, In x l -> exists y, f x = Ok y /\ P x y) ->
  exists ys, map_res f l = Ok ys /\ Forall2 P l ys.
Proof.
  induction l as [|x l IH]; intros H.
  - exists []. split; [reflexivity|constructor].
  - destruct (H x (or_introl eq_refl)) as (y & E & Py). destruct IH as (ys & E' & F); [intros; apply H; right; auto|].
    exists (y :: ys). cbn [map_res]. rewrite E. cbn [bind]. rewrite E'. split; [reflexivity|constructor; auto].
Qed.

Section P.
Variable K : StarRing.
Add Ring Kr : (r_theory K).
Implicit Types a b c M A : arr K.

Lemma nr_num n : nr n = @num K n.
Proof. induction n as [|n IH]; [reflexivity|]. cbn [nr num]. rewrite IH. reflexivity. Qed.

Lemma contract_none t a axes : (forall i, In i axes -> leaf_array t i = None) -> contract_axes t a axes = Ok a.
Proof.
  revert a. induction axes as [|i axes IH]; intros a H; [reflexivity|]. cbn [contract_axes]. rewrite (H i (or_introl eq_refl)). cbn [partial_product bind].
  apply IH. intros; apply H; right; auto.
Qed.
Lemma contract_app t a l1 l2 : contract_axes t a (l1 ++ l2) = bind (contract_axes t a l1) (fun b => contract_axes t b l2).
Proof.
  revert a. induction l1 as [|i l1 IH]; intros a; [reflexivity|]. cbn [app contract_axes]. destruct (partial_product a i (leaf_array t i) 0); cbn [bind]; auto.
Qed.
Lemma contract_one t a s n i M : s <= i < s + n -> leaf_array t i = Some M -> (forall x, x <> i -> leaf_array t x = None) ->
  contract_axes t a (seq s n) = partial_product a i (Some M) 0.
Proof.
  intros Hi E N. replace n with ((i - s) + S (n - S (i - s))) by lia. rewrite seq_app, contract_app, contract_none.
  2: { intros x Hx. apply in_seq in Hx. apply N. lia. }
  cbn [bind seq contract_axes]. replace (s + (i - s)) with i by lia. rewrite E.
  destruct (partial_product a i (Some M) 0) as [b|e]; cbn [bind]; auto. apply contract_none. intros x Hx. apply in_seq in Hx. apply N. lia.
Qed.
Lemma contract_two t a n k i M A : k < i < n -> leaf_array t k = Some M -> leaf_array t i = Some A -> (forall x, x <> i -> x <> k -> leaf_array t x = None) ->
  contract_axes t a (seq 0 n) = bind (partial_product a k (Some M) 0) (fun b => partial_product b i (Some A) 0).
Proof.
  intros Hi E1 E2 N. replace n with (S k + (n - S k)) by lia. rewrite seq_app, contract_app.
  replace (S k) with (k + 1) at 1 by lia. rewrite seq_app, contract_app, contract_none.
  2: { intros x Hx. apply in_seq in Hx. apply N; lia. }
  cbn [bind seq contract_axes Nat.add]. rewrite E1. destruct (partial_product a k (Some M) 0) as [b|e]; cbn [bind]; auto.
  replace (n - S k) with ((i - S k) + S (n - S i)) by lia. rewrite seq_app, contract_app, contract_none.
  2: { intros x Hx. apply in_seq in Hx. apply N; lia. }
  cbn [bind seq contract_axes]. replace (S k + (i - S k)) with i by lia. rewrite E2.
  destruct (partial_product b i (Some A) 0) as [b'|e]; cbn [bind]; auto. apply contract_none. intros x Hx. apply in_seq in Hx. apply N; lia.
Qed.

(** ** Arrays rho[n_0, ..., i, j] *)
Variables (dims : list nat) (d : nat).
Notation m := (length dims).
Definition rep a := wf a /\ shape a = dims ++ [d; d].

Lemma ndim_rep a : rep a -> ndim a = m + 2.
Proof. intros (_ & E). unfold ndim. rewrite E, app_length. reflexivity. Qed.
Lemma in_range_rep n i j : in_range n dims -> i < d -> j < d -> in_range (n ++ [i; j]) (dims ++ [d; d]).
Proof. intros. apply in_range_app; auto. apply in_range2; auto. Qed.

Lemma nth_k (k : nat) (l : list nat) x : k < length l -> nth k (l ++ x) 0 = nth k l 0.
Proof. intros. apply app_nth1; auto. Qed.
Lemma nth_m (l : list nat) x y : nth (length l) (l ++ [x; y]) 0 = x.
Proof. rewrite app_nth2, Nat.sub_diag; auto. Qed.
Lemma nth_m1 (l : list nat) x y : nth (length l + 1) (l ++ [x; y]) 0 = y.
Proof. rewrite app_nth2 by lia. replace (length l + 1 - length l) with 1 by lia. reflexivity. Qed.
Lemma upd_m (l : list nat) x y z : upd (length l) z (l ++ [x; y]) = l ++ [z; y].
Proof. apply upd_app. Qed.
Lemma upd_m1 (l : list nat) x y z : upd (length l + 1) z (l ++ [x; y]) = l ++ [x; z].
Proof. replace (length l + 1) with (length (l ++ [x])) by (rewrite app_length; cbn; lia). replace (l ++ [x; y]) with ((l ++ [x]) ++ [y]) by (rewrite <- app_assoc; reflexivity). rewrite upd_app, <- app_assoc. reflexivity. Qed.

Definition square (M : arr K) (p : nat) := shape M = [p; p].

Lemma mode_k a k M : rep a -> k < m -> square M (nth k dims 0) ->
  partial_product a k (Some M) 0 = Ok (mode0 a k M) /\ rep (mode0 a k M) /\
  forall n i j, in_range n dims -> i < d -> j < d ->
    get (mode0 a k M) (n ++ [i; j]) = sumn (nth k dims 0) (fun x => rmul (get a (upd k x n ++ [i; j])) (get M [x; nth k n 0])).
Proof.
  intros R Hk HM. pose proof (ndim_rep a R) as Nd. destruct R as (Wa & Sa). unfold square in HM.
  assert (Ek : nth k (shape a) 0 = nth k dims 0) by (rewrite Sa; apply nth_k; auto).
  split; [|split].
  - eapply pp_mode0; eauto; lia.
  - split; [apply wf_build|]. unfold mode0. rewrite shape_build, HM, Sa. cbn [nth]. rewrite upd_app_l by auto. rewrite upd_same. reflexivity.
  - intros n i j Hn Hi Hj. pose proof (in_range_len _ _ Hn) as Ln. rewrite get_mode0.
    + rewrite Ek. apply sumn_ext. intros x Hx. rewrite upd_app_l by lia. rewrite nth_k by lia. reflexivity.
    + rewrite HM, Sa. cbn [nth]. rewrite upd_app_l, upd_same by auto. apply in_range_rep; auto.
Qed.

Lemma mode_i a A : rep a -> square A d ->
  partial_product a m (Some A) 0 = Ok (mode0 a m A) /\ rep (mode0 a m A) /\
  forall n i j, in_range n dims -> i < d -> j < d ->
    get (mode0 a m A) (n ++ [i; j]) = sumn d (fun x => rmul (get a (n ++ [x; j])) (get A [x; i])).
Proof.
  intros R HM. pose proof (ndim_rep a R) as Nd. destruct R as (Wa & Sa). unfold square in HM.
  assert (Ek : nth m (shape a) 0 = d) by (rewrite Sa; apply nth_m).
  assert (Es : upd m (nth 1 (shape A) 0) (shape a) = dims ++ [d; d]) by (rewrite HM, Sa; cbn [nth]; apply upd_m).
  split; [|split].
  - eapply pp_mode0; eauto; lia.
  - split; [apply wf_build|]. unfold mode0. rewrite shape_build. exact Es.
  - intros n i j Hn Hi Hj. pose proof (in_range_len _ _ Hn) as Ln. rewrite get_mode0.
    + rewrite Ek. apply sumn_ext. intros x Hx. rewrite <- Ln, upd_m, nth_m. reflexivity.
    + rewrite Es. apply in_range_rep; auto.
Qed.

Lemma mode_j a A : rep a -> square A d ->
  partial_product a (m + 1) (Some A) 0 = Ok (mode0 a (m + 1) A) /\ rep (mode0 a (m + 1) A) /\
  forall n i j, in_range n dims -> i < d -> j < d ->
    get (mode0 a (m + 1) A) (n ++ [i; j]) = sumn d (fun x => rmul (get a (n ++ [i; x])) (get A [x; j])).
Proof.
  intros R HM. pose proof (ndim_rep a R) as Nd. destruct R as (Wa & Sa). unfold square in HM.
  assert (Ek : nth (m + 1) (shape a) 0 = d) by (rewrite Sa; apply nth_m1).
  assert (Es : upd (m + 1) (nth 1 (shape A) 0) (shape a) = dims ++ [d; d]) by (rewrite HM, Sa; cbn [nth]; apply upd_m1).
  split; [|split].
  - eapply pp_mode0; eauto; lia.
  - split; [apply wf_build|]. unfold mode0. rewrite shape_build. exact Es.
  - intros n i j Hn Hi Hj. pose proof (in_range_len _ _ Hn) as Ln. rewrite get_mode0.
    + rewrite Ek. apply sumn_ext. intros x Hx. rewrite <- Ln, upd_m1, nth_m1. reflexivity.
    + rewrite Es. apply in_range_rep; auto.
Qed.

(** ** Matrices that couple neighbouring tiers *)
Definition tridiag (M : arr K) (p : nat) (u v w : nat -> K) :=
  shape M = [p; p] /\ forall x y, x < p -> y < p ->
    get M [x; y] = (delta (S x) y * u y + delta x y * v y + delta x (S y) * w y)%S.

(** Effect on tiers. *)
Definition kact (u v w : nat -> K) (k : nat) (f : ext K) : ext K := fun n i j =>
  (u (occ n k) * f (less k n) i j + v (occ n k) * f n i j + w (occ n k) * f (more k n) i j)%S.

Lemma tiers_in a n i j : in_range n dims -> tiers dims a n i j = get a (n ++ [i; j]).
Proof. intros H. unfold tiers. apply inside_iff in H. rewrite H. reflexivity. Qed.

Lemma kact_sum a k (M : arr K) u v w n i j : rep a -> k < m -> tridiag M (nth k dims 0) u v w -> u 0 = r0 -> in_range n dims ->
  sumn (nth k dims 0) (fun x => rmul (get a (upd k x n ++ [i; j])) (get M [x; nth k n 0])) = kact u v w k (tiers dims a) n i j.
Proof.
  intros R Hk (HS & HM) U0 Hn. pose proof (in_range_len _ _ Hn) as Ln. pose proof (in_range_nth k _ _ Hn Hk) as Hb.
  set (b := nth k n 0) in *. set (p := nth k dims 0) in *.
  set (g := fun x => get a (upd k x n ++ [i; j])).
  transitivity (sumn p (fun x => delta (S x) b * (u b * g x)) + sumn p (fun x => delta x b * (v b * g x)) + sumn p (fun x => delta x (S b) * (w b * g x)))%S.
  { rewrite <- !sumn_add. apply sumn_ext. intros x Hx. rewrite HM by auto. unfold g. ring. }
  rewrite (sumn_delta K p b) by auto. unfold kact, occ. fold b. f_equal; [f_equal|].
  - destruct b as [|b'] eqn:Eb.
    + rewrite U0. rewrite sumn_zero; [ring|]. intros x _. unfold delta. cbn [Nat.eqb]. ring.
    + rewrite (sumn_ext K p _ (fun x => delta x b' * (u (S b') * g x))%S) by (intros; reflexivity).
      rewrite sumn_delta by lia. unfold less, occ. fold b. rewrite Eb. cbn [pred]. rewrite tiers_in; [reflexivity|].
      apply in_range_upd_same; auto. fold p. lia.
  - unfold g. unfold b. rewrite upd_same. fold b. rewrite tiers_in; auto.
  - unfold more, occ. fold b. unfold tiers. destruct (inside (upd k (S b) n) dims) eqn:Ei.
    + apply inside_iff in Ei. pose proof (in_range_nth k _ _ Ei Hk) as H. rewrite nth_upd_eq in H by lia. fold p in H.
      rewrite sumn_delta by auto. reflexivity.
    + rewrite sumn_zero; [ring|]. intros x Hx. unfold delta. destruct (Nat.eqb_spec x (S b)) as [->|N]; [|ring].
      exfalso. assert (H : in_range (upd k (S b) n) dims) by (apply in_range_upd_same; auto). apply inside_iff in H. congruence.
Qed.

(** ** What a list of terms computes *)
Definition computes (t : term K) a (v : ext K) := exists c, apply_term t a = Ok c /\ rep c /\
  forall n i j, in_range n dims -> i < d -> j < d -> get c (n ++ [i; j]) = v n i j.

Definition sums (l : list (term K)) a (v : ext K) := exists vs, Forall2 (fun t w => computes t a w) l vs /\
  forall n i j, in_range n dims -> i < d -> j < d -> v n i j = sumL vs (fun w => w n i j).

Lemma sums_ext l a v v' : sums l a v -> (forall n i j, in_range n dims -> i < d -> j < d -> v n i j = v' n i j) -> sums l a v'.
Proof. intros (vs & F & G) H. exists vs. split; auto. intros. rewrite <- H, G by auto. reflexivity. Qed.
Lemma sums_nil a : sums [] a (fun _ _ _ => r0).
Proof. exists []. split; [constructor|]. intros. rewrite sumL_nil. reflexivity. Qed.
Lemma sums_cons t l a v w : computes t a v -> sums l a w -> sums (t :: l) a (fun n i j => (v n i j + w n i j)%S).
Proof. intros C (vs & F & G). exists (v :: vs). split; [constructor; auto|]. intros. rewrite sumL_cons, G by auto. reflexivity. Qed.
Lemma sums_app l1 l2 a v w : sums l1 a v -> sums l2 a w -> sums (l1 ++ l2) a (fun n i j => (v n i j + w n i j)%S).
Proof.
  intros (vs & F & G) (vs' & F' & G'). exists (vs ++ vs'). split; [apply Forall2_app; auto|]. intros. rewrite sumL_app, <- G, <- G' by auto. reflexivity.
Qed.
Lemma sums_concat {X} (xs : list X) ls a (v : X -> ext K) : Forall2 (fun x l => sums l a (v x)) xs ls ->
  sums (concat ls) a (fun n i j => sumL xs (fun x => v x n i j)).
Proof.
  induction 1 as [|x l xs ls H F IH]; cbn [concat].
  - eapply sums_ext; [apply sums_nil|]. intros. rewrite sumL_nil. reflexivity.
  - eapply sums_ext; [eapply sums_app; [exact H|exact IH]|]. intros. rewrite sumL_cons. reflexivity.
Qed.

Lemma add_rep x y : rep x -> rep y -> exists c, arr_add x y = Ok c /\ rep c /\
  forall n i j, in_range n dims -> i < d -> j < d -> get c (n ++ [i; j]) = (get x (n ++ [i; j]) + get y (n ++ [i; j]))%S.
Proof.
  intros (Wx & Sx) (Wy & Sy). eexists. split; [apply arr_add_ok; auto; congruence|]. split; [split; [apply wf_build|exact Sx]|].
  intros n i j Hn Hi Hj. rewrite get_build; auto. rewrite Sx. apply in_range_rep; auto.
Qed.
Lemma sums_apply l a v : rep a -> sums l a v -> exists c, apply_terms l a = Ok c /\ rep c /\
  forall n i j, in_range n dims -> i < d -> j < d -> get c (n ++ [i; j]) = v n i j.
Proof.
  intros R (vs & F & G). cut (exists c, apply_terms l a = Ok c /\ rep c /\
    forall n i j, in_range n dims -> i < d -> j < d -> get c (n ++ [i; j]) = sumL vs (fun w => w n i j)).
  { intros (c & E & Rc & Gc). exists c. split; auto. split; auto. intros. rewrite G, Gc by auto. reflexivity. }
  clear G. induction F as [|t w l vs (x & Ex & Rx & Gx) F (y & Ey & Ry & Gy)].
  - destruct R as (Wa & Sa). exists (zeros (shape a)). split; [reflexivity|]. split; [split; [apply wf_build|exact Sa]|].
    intros n i j Hn Hi Hj. rewrite sumL_nil. unfold zeros. rewrite get_build; auto. rewrite Sa. apply in_range_rep; auto.
  - destruct (add_rep x y Rx Ry) as (c & Ec & Rc & Gc). exists c. cbn [apply_terms]. rewrite Ex. cbn [bind]. rewrite Ey. cbn [bind].
    split; auto. split; auto. intros. rewrite Gc, Gx, Gy, sumL_cons by auto. reflexivity.
Qed.

(** ** The kinds of terms *)
Lemma one_k a k M u v w : rep a -> k < m -> tridiag M (nth k dims 0) u v w -> u 0 = r0 ->
  computes [(k, M)] a (kact u v w k (tiers dims a)).
Proof.
  intros R Hk T U0. destruct (mode_k a k M R Hk (proj1 T)) as (E & R' & G). exists (mode0 a k M). split; [|split; auto].
  - unfold apply_term. rewrite (ndim_rep a R). rewrite <- E. apply contract_one; [lia| |]; unfold leaf_array; cbn [rev app find fst].
    + rewrite Nat.eqb_refl. reflexivity.
    + intros x N. destruct (Nat.eqb_spec k x); [congruence|reflexivity].
  - intros n i j Hn Hi Hj. rewrite G by auto. apply kact_sum; auto.
Qed.
Lemma one_i a A : rep a -> square A d -> computes [(m, A)] a (fun n i j => sumn d (fun x => rmul (tiers dims a n x j) (get A [x; i]))).
Proof.
  intros R Q. destruct (mode_i a A R Q) as (E & R' & G). exists (mode0 a m A). split; [|split; auto].
  - unfold apply_term. rewrite (ndim_rep a R). rewrite <- E. apply contract_one; [lia| |]; unfold leaf_array; cbn [rev app find fst].
    + rewrite Nat.eqb_refl. reflexivity.
    + intros x N. destruct (Nat.eqb_spec m x); [congruence|reflexivity].
  - intros n i j Hn Hi Hj. rewrite G by auto. apply sumn_ext. intros x Hx. rewrite tiers_in; auto.
Qed.
Lemma one_j a A : rep a -> square A d -> computes [(m + 1, A)] a (fun n i j => sumn d (fun x => rmul (tiers dims a n i x) (get A [x; j]))).
Proof.
  intros R Q. destruct (mode_j a A R Q) as (E & R' & G). exists (mode0 a (m + 1) A). split; [|split; auto].
  - unfold apply_term. rewrite (ndim_rep a R). rewrite <- E. apply contract_one; [lia| |]; unfold leaf_array; cbn [rev app find fst].
    + rewrite Nat.eqb_refl. reflexivity.
    + intros x N. destruct (Nat.eqb_spec (m + 1) x); [congruence|reflexivity].
  - intros n i j Hn Hi Hj. rewrite G by auto. apply sumn_ext. intros x Hx. rewrite tiers_in; auto.
Qed.
Lemma two_arrays x k A M : k < x ->
  leaf_array [(x, A); (k, M)] k = Some M /\ leaf_array [(x, A); (k, M)] x = Some A /\
  forall y, y <> x -> y <> k -> leaf_array [(x, A); (k, M)] y = None.
Proof.
  intros H. unfold leaf_array. cbn [rev app find fst]. rewrite !Nat.eqb_refl. split; [reflexivity|]. split.
  - destruct (Nat.eqb_spec k x); [lia|reflexivity].
  - intros y N1 N2. destruct (Nat.eqb_spec k y); [congruence|]. destruct (Nat.eqb_spec x y); [congruence|reflexivity].
Qed.
Lemma two_i a k A M u v w : rep a -> k < m -> square A d -> tridiag M (nth k dims 0) u v w -> u 0 = r0 ->
  computes [(m, A); (k, M)] a (fun n i j => sumn d (fun x => rmul (kact u v w k (tiers dims a) n x j) (get A [x; i]))).
Proof.
  intros R Hk Q T U0. destruct (mode_k a k M R Hk (proj1 T)) as (E & R' & G). destruct (mode_i _ A R' Q) as (E2 & R2 & G2).
  destruct (two_arrays m k A M Hk) as (L1 & L2 & L3). exists (mode0 (mode0 a k M) m A). split; [|split; auto].
  - unfold apply_term. rewrite (ndim_rep a R). rewrite (contract_two _ a (m + 2) k m M A); auto; [|lia]. rewrite E. cbn [bind]. exact E2.
  - intros n i j Hn Hi Hj. rewrite G2 by auto. apply sumn_ext. intros x Hx. rewrite G by auto. f_equal. apply kact_sum; auto.
Qed.
Lemma two_j a k A M u v w : rep a -> k < m -> square A d -> tridiag M (nth k dims 0) u v w -> u 0 = r0 ->
  computes [(m + 1, A); (k, M)] a (fun n i j => sumn d (fun x => rmul (kact u v w k (tiers dims a) n i x) (get A [x; j]))).
Proof.
  intros R Hk Q T U0. destruct (mode_k a k M R Hk (proj1 T)) as (E & R' & G). destruct (mode_j _ A R' Q) as (E2 & R2 & G2).
  destruct (two_arrays (m + 1) k A M) as (L1 & L2 & L3); [lia|]. exists (mode0 (mode0 a k M) (m + 1) A). split; [|split; auto].
  - unfold apply_term. rewrite (ndim_rep a R). rewrite (contract_two _ a (m + 2) k (m + 1) M A); auto; [|lia]. rewrite E. cbn [bind]. exact E2.
  - intros n i j Hn Hi Hj. rewrite G2 by auto. apply sumn_ext. intros x Hx. rewrite G by auto. f_equal. apply kact_sum; auto.
Qed.

(** ** The matrices of the code *)
Lemma get_diag (l : list K) x y : x < length l -> y < length l -> get (diag l) [x; y] = (delta x y * nth x l 0)%S.
Proof. intros. unfold diag. rewrite get_build by (apply in_range2; auto). reflexivity. Qed.
Lemma get_up p x y : x < p -> y < p -> get (@eye_up K p) [x; y] = delta (S x) y.
Proof. intros. unfold eye_up. rewrite get_build by (apply in_range2; auto). reflexivity. Qed.
Lemma get_dn p x y : x < p -> y < p -> get (@eye_dn K p) [x; y] = delta x (S y).
Proof. intros. unfold eye_dn. rewrite get_build by (apply in_range2; auto). reflexivity. Qed.
Lemma nth_seq_map (f : nat -> K) p x : x < p -> nth x (map f (seq 0 p)) r0 = f x.
Proof. intros H. rewrite (nth_indep _ r0 (f 0)) by (rewrite map_length, seq_length; auto). rewrite map_nth, seq_nth; auto. Qed.
Lemma delta_ne x y : x <> y -> @delta K x y = r0.
Proof. intros N. unfold delta. destruct (Nat.eqb_spec x y); [congruence|reflexivity]. Qed.
Lemma delta_eq x : @delta K x x = r1.
Proof. unfold delta. rewrite Nat.eqb_refl. reflexivity. Qed.

Lemma tri_diag (f : nat -> K) p : tridiag (diag (map f (seq 0 p))) p (fun _ => r0) f (fun _ => r0).
Proof.
  split; [unfold diag; rewrite shape_build, map_length, seq_length; reflexivity|]. intros x y Hx Hy.
  rewrite get_diag by (rewrite map_length, seq_length; auto). rewrite nth_seq_map by auto.
  destruct (Nat.eq_dec x y) as [->|N]; [ring|]. rewrite (delta_ne x y N). ring.
Qed.
Lemma tri_scale (s : K) M p u v w : tridiag M p u v w -> tridiag (arr_scale s M) p (fun x => s * u x)%S (fun x => s * v x)%S (fun x => s * w x)%S.
Proof. intros (E & H). split; [exact E|]. intros. rewrite get_scale, H by auto. ring. Qed.
Lemma tri_up p : tridiag (@eye_up K p) p (fun _ => r1) (fun _ => r0) (fun _ => r0).
Proof. split; [reflexivity|]. intros. rewrite get_up by auto. ring. Qed.
Lemma tri_dn p : tridiag (@eye_dn K p) p (fun _ => r0) (fun _ => r0) (fun _ => r1).
Proof. split; [reflexivity|]. intros. rewrite get_dn by auto. ring. Qed.
Lemma tri_ext M p u v w u' v' w' : tridiag M p u v w -> (forall x, x < p -> u x = u' x) -> (forall x, x < p -> v x = v' x) -> (forall x, x < p -> w x = w' x) ->
  tridiag M p u' v' w'.
Proof. intros (E & H) H1 H2 H3. split; auto. intros. rewrite H, H1, H2, H3 by auto. reflexivity. Qed.

(** matrix times diagonal, diagonal times matrix *)
Lemma tri_mul_diag M p u v w (f : nat -> K) : tridiag M p u v w ->
  exists N, matmul M (diag (map f (seq 0 p))) = Ok N /\ tridiag N p (fun x => u x * f x)%S (fun x => v x * f x)%S (fun x => w x * f x)%S.
Proof.
  intros (E & H). eexists. split; [eapply matmul_ok; [exact E|unfold diag; rewrite shape_build, map_length, seq_length; reflexivity]|].
  split; [reflexivity|]. intros x y Hx Hy. rewrite get_build by (apply in_range2; auto). cbn [nth].
  rewrite (sumn_ext K p _ (fun k => delta k y * (get M [x; k] * f k))%S).
  - rewrite sumn_delta by auto. rewrite H by auto. ring.
  - intros k Hk. rewrite get_diag by (rewrite map_length, seq_length; auto). rewrite nth_seq_map by auto. ring.
Qed.
Lemma diag_mul_tri M p u v w (f : nat -> K) : tridiag M p u v w ->
  exists N, matmul (diag (map f (seq 0 p))) M = Ok N /\
    tridiag N p (fun x => f (pred x) * u x)%S (fun x => f x * v x)%S (fun x => f (S x) * w x)%S.
Proof.
  intros (E & H). eexists. split; [eapply matmul_ok; [unfold diag; rewrite shape_build, map_length, seq_length; reflexivity|exact E]|].
  split; [reflexivity|]. intros x y Hx Hy. rewrite get_build by (apply in_range2; auto). cbn [nth].
  rewrite (sumn_ext K p _ (fun k => delta k x * (f x * get M [k; y]))%S).
  - rewrite sumn_delta by auto. rewrite H by auto.
    destruct (Nat.eq_dec (S x) y) as [<-|N1]; [|rewrite (delta_ne (S x) y N1)].
    + cbn [pred]. rewrite (delta_ne x (S x)), (delta_ne x (S (S x))) by lia. ring.
    + destruct (Nat.eq_dec x y) as [->|N2]; [|rewrite (delta_ne x y N2)].
      * rewrite (delta_ne y (S y)) by lia. ring.
      * destruct (Nat.eq_dec x (S y)) as [->|N3]; [|rewrite (delta_ne x (S y) N3)]; ring.
  - intros k Hk. rewrite get_diag by (rewrite map_length, seq_length; auto). rewrite nth_seq_map by auto. rewrite (delta_sym K x k). ring.
Qed.
Lemma tri_add M N p u v w u' v' w' : wf M -> wf N -> tridiag M p u v w -> tridiag N p u' v' w' ->
  exists P, arr_add M N = Ok P /\ tridiag P p (fun x => u x + u' x)%S (fun x => v x + v' x)%S (fun x => w x + w' x)%S.
Proof.
  intros WM WN (E & H) (E' & H'). eexists. split; [apply arr_add_ok; auto; congruence|]. split; [exact E|].
  intros. rewrite get_build by (rewrite E; apply in_range2; auto). rewrite H, H' by auto. ring.
Qed.

Lemma matmul_wf (a b c : arr K) : matmul a b = Ok c -> wf c.
Proof.
  unfold matmul. destruct (shape a) as [|x [|y [|]]]; try discriminate. destruct (shape b) as [|x' [|y' [|]]]; try discriminate.
  destruct (y =? x'); [|discriminate]. injection 1 as <-. apply wf_build.
Qed.

Lemma get_T (a : arr K) i j : shape a = [d; d] -> i < d -> j < d -> get (mat_T a) [i; j] = get a [j; i].
Proof.
  intros E Hi Hj. unfold mat_T, transpose. rewrite E. cbn [gather map nth]. rewrite get_build by (apply in_range2; auto).
  unfold ndim. rewrite E. reflexivity.
Qed.
Lemma shape_T (a : arr K) : shape a = [d; d] -> shape (mat_T a) = [d; d].
Proof. intros E. unfold mat_T, transpose. rewrite shape_build, E. reflexivity. Qed.

(** ** The sums over system indices *)
Lemma sum_left (c : K) (f : nat -> K) (A : nat -> K) : sumn d (fun x => f x * (c * A x))%S = (c * sumn d (fun x => A x * f x))%S.
Proof. rewrite <- sumn_scal_l. apply sumn_ext. intros. ring. Qed.
Lemma sum_right (c : K) (f : nat -> K) (A : nat -> K) : sumn d (fun x => f x * (c * A x))%S = (c * sumn d (fun x => f x * A x))%S.
Proof. rewrite <- sumn_scal_l. apply sumn_ext. intros. ring. Qed.
End P.

(** ** eom2.py *)
Section Plain.
Variable K : StarRing.
Add Ring Kr2 : (r_theory K).
Variables (im ihbar : K) (sq : nat -> K) (dims : list nat) (d : nat) (h op : arr K) (gamma symm asymm : list K) (close0 : K -> bool).
Hypothesis Hh : shape h = [d; d].
Hypothesis Hop : shape op = [d; d].
Hypothesis Lg : length gamma = length dims.
Hypothesis Ls : length symm = length dims.
Hypothesis La : length asymm = length dims.
Hypothesis C0 : close0 r0 = true.
Hypothesis C1 : forall g, close0 g = true -> g = r0.
Notation m := (length dims).
Notation cf k := (nth k symm r0 + im * nth k asymm r0)%S.

Lemma item_nth {A} (l : list A) k (x : A) : k < length l -> item l k = Ok (nth k l x).
Proof. intros H. unfold item. rewrite (nth_error_nth' l x H). reflexivity. Qed.

Lemma arr_T_scale (s : K) (a : arr K) : shape (arr_scale s a) = shape a.
Proof. reflexivity. Qed.

Lemma diff_ij_sums a : rep K dims d a ->
  sums K dims d (diff_ij K im dims h) a (fun n i j => - im * (lmul d (mat h) (tiers dims a n) i j - rmult d (tiers dims a n) (mat h) i j))%S.
Proof.
  intros R. unfold diff_ij, k_max. eapply sums_ext.
  - apply sums_cons; [apply one_i; auto; unfold square; cbn [arr_scale shape]; apply shape_T; auto|].
    apply sums_cons; [apply one_j; auto|apply sums_nil].
  - intros n i j Hn Hi Hj. cbn beta. unfold lmul, rmult, mat.
    rewrite (sumn_ext K d _ (fun x => tiers dims a n x j * (- im * get h [i; x]))%S)
      by (intros x Hx; rewrite get_scale, (get_T K d) by auto; reflexivity).
    rewrite sum_left. rewrite (sumn_ext K d (fun x => rmul (tiers dims a n i x) _) (fun x => tiers dims a n i x * (im * get h [x; j]))%S)
      by (intros x Hx; rewrite get_scale; reflexivity).
    rewrite sum_right. ring.
Qed.

Lemma numberer_ok k : k < m -> exists n, numberer K dims k = Ok n /\ tridiag K n (nth k dims 0) (fun _ => r0) (fun x => nr x) (fun _ => r0) /\ n = diag (map nr (seq 0 (nth k dims 0))).
Proof.
  intros Hk. unfold numberer. rewrite (item_nth dims k 0) by auto. cbn [bind]. unfold arange. eexists. split; [reflexivity|]. split; [apply tri_diag|reflexivity].
Qed.

Lemma diff_n2_sums a : rep K dims d a ->
  exists l, diff_n2 K sq dims gamma close0 = Ok l /\
    sums K dims d l a (fun n i j => - sumn m (fun k => num (occ n k) * nth k gamma r0) * tiers dims a n i j)%S.
Proof.
  intros R. unfold diff_n2, k_max.
  destruct (map_res_ok (diff_n_term K sq dims gamma close0)
    (fun p l => sums K dims d l a (fun n i j => if fst p =? snd p then - (num (occ n (fst p)) * nth (fst p) gamma r0) * tiers dims a n i j else r0)%S)
    (list_prod (seq 0 m) (seq 0 m))) as (ls & E & F).
  - intros (i, j) Hin. apply in_prod_iff in Hin as (Hi & Hj). apply in_seq in Hi, Hj. cbn [diff_n_term fst snd]. unfold gamma_at.
    rewrite (item_nth gamma i r0), (item_nth gamma j r0) by lia. cbn [bind]. destruct (Nat.eqb_spec i j) as [<-|N].
    + destruct (close0 (nth i gamma r0)) eqn:Ec.
      * exists []. split; [reflexivity|]. eapply sums_ext; [apply sums_nil|]. intros. cbn beta. rewrite (C1 _ Ec). ring.
      * destruct (numberer_ok i) as (nn & En & Tn & _); [lia|]. rewrite En. cbn [bind]. eexists. split; [reflexivity|].
        eapply sums_ext; [apply sums_cons; [eapply one_k; [exact R|lia|apply tri_scale; exact Tn|cbn beta; ring]|apply sums_nil]|].
        intros n x y Hn Hx Hy. unfold kact. rewrite nr_num. ring.
    + rewrite C0. exists []. split; [reflexivity|]. eapply sums_ext; [apply sums_nil|]. intros. reflexivity.
  - rewrite E. cbn [bind]. exists (concat ls). split; [reflexivity|]. eapply sums_ext; [apply sums_concat; exact F|].
    intros n i j Hn Hi Hj. cbn beta. unfold sumn at 1.
    transitivity (sumL (seq 0 m) (fun k => sumL (seq 0 m) (fun k' => if k =? k' then - (num (occ n k) * nth k gamma r0) * tiers dims a n i j else r0)))%S.
    + generalize (seq 0 m) at 1 3. intros l. generalize (seq 0 m). intros l'. induction l as [|x l IH]; [reflexivity|].
      cbn [list_prod]. rewrite sumL_app, sumL_cons, <- IH, sumL_map. reflexivity.
    + rewrite <- sumL_opp, <- sumL_scal_r. apply sumL_ext_in. intros k Hk. apply in_seq in Hk. fold (sumn m (fun k' => if k =? k' then - (num (occ n k) * nth k gamma r0) * tiers dims a n i j else r0)%S).
      rewrite (sumn_ext K m _ (fun k' => delta k' k * (- (num (occ n k) * nth k gamma r0) * tiers dims a n i j))%S).
      * rewrite sumn_delta by lia. reflexivity.
      * intros k' Hk'. unfold delta. rewrite (Nat.eqb_sym k' k). destruct (k =? k'); ring.
Qed.

Lemma raise_number k : k < m -> exists rn, matmul (@eye_up K (nth k dims 0)) (diag (arange (nth k dims 0))) = Ok rn /\
  tridiag K rn (nth k dims 0) (fun x => nr x) (fun _ => r0) (fun _ => r0).
Proof.
  intros Hk. destruct (tri_mul_diag K _ _ _ _ _ nr (tri_up K (nth k dims 0))) as (N & E & T). exists N. split; [exact E|].
  eapply tri_ext; [exact T|..]; intros; cbn beta; ring.
Qed.

Lemma diff_k2_sums a k : rep K dims d a -> k < m ->
  exists l, diff_k2 K im ihbar dims op symm asymm k = Ok l /\
    sums K dims d l a (fun n i j =>
      - (im * ihbar) * (lmul d (mat op) (tiers dims a (more k n)) i j - rmult d (tiers dims a (more k n)) (mat op) i j)
      + - (im * ihbar) * num (occ n k) * (cf k * lmul d (mat op) (tiers dims a (less k n)) i j - rconj (cf k) * rmult d (tiers dims a (less k n)) (mat op) i j))%S.
Proof.
  intros R Hk. unfold diff_k2, c_at, numberer, raiser2, lower2, k_max.
  rewrite (item_nth symm k r0), (item_nth asymm k r0), (item_nth dims k 0) by lia. cbn [bind].
  destruct (raise_number k Hk) as (rn & Er & Tr). rewrite Er. cbn [bind]. eexists. split; [reflexivity|].
  set (c := cf k). assert (ST : shape (mat_T op) = [d; d]) by (apply shape_T; auto).
  eapply sums_ext.
  - apply sums_cons; [eapply two_i; [exact R|exact Hk|exact ST|apply tri_dn|reflexivity]|].
    apply sums_cons; [eapply two_j; [exact R|exact Hk|exact Hop|apply tri_dn|reflexivity]|].
    apply sums_cons; [eapply two_i; [exact R|exact Hk|exact ST|exact Tr|reflexivity]|].
    apply sums_cons; [eapply two_j; [exact R|exact Hk|exact Hop|exact Tr|reflexivity]|apply sums_nil].
  - intros n i j Hn Hi Hj. cbn beta. unfold kact, lmul, rmult, mat.
    set (T := tiers dims a).
    rewrite (sumn_ext K d (fun x => _ * get (arr_scale (- im * ihbar) (mat_T op)) [x; i])%S (fun x => T (more k n) x j * (- im * ihbar * get op [i; x]))%S)
      by (intros x Hx; rewrite get_scale, (get_T K d) by auto; ring).
    rewrite (sumn_ext K d (fun x => _ * get (arr_scale (im * ihbar) op) [x; j])%S (fun x => T (more k n) i x * (im * ihbar * get op [x; j]))%S)
      by (intros x Hx; rewrite get_scale by auto; ring).
    rewrite (sumn_ext K d (fun x => _ * get (arr_scale (- im * ihbar * c) (mat_T op)) [x; i])%S (fun x => T (less k n) x j * (- im * ihbar * c * num (occ n k) * get op [i; x]))%S)
      by (intros x Hx; rewrite get_scale, (get_T K d), nr_num by auto; ring).
    rewrite (sumn_ext K d (fun x => _ * get (arr_scale (im * ihbar * rconj c) op) [x; j])%S (fun x => T (less k n) i x * (im * ihbar * rconj c * num (occ n k) * get op [x; j]))%S)
      by (intros x Hx; rewrite get_scale, nr_num by auto; ring).
    rewrite !sum_left.
    rewrite (sumn_ext K d (fun x => T (more k n) i x * get op [x; j])%S (fun x => get op [x; j] * T (more k n) i x)%S) by (intros; ring).
    rewrite (sumn_ext K d (fun x => T (less k n) i x * get op [x; j])%S (fun x => get op [x; j] * T (less k n) i x)%S) by (intros; ring).
    ring.
Qed.

Lemma plain_ok_at a : rep K dims d a ->
  exists l b, diff2 K im ihbar sq dims h op gamma symm asymm close0 = Ok l /\ apply_terms l a = Ok b /\ rep K dims d b /\
    forall n i j, in_range n dims -> i < d -> j < d ->
      get b (n ++ [i; j]) = plain_rhs im ihbar d m (mat h) (mat h) (mat op) (mat op) (fun k => nth k gamma r0) (fun k => cf k) (fun k => rconj (cf k)) (tiers dims a) n i j.
Proof.
  intros R. destruct (diff_n2_sums a R) as (ln & En & Sn).
  destruct (map_res_ok (diff_k2 K im ihbar dims op symm asymm) (fun k l => sums K dims d l a (fun n i j =>
      - (im * ihbar) * (lmul d (mat op) (tiers dims a (more k n)) i j - rmult d (tiers dims a (more k n)) (mat op) i j)
      + - (im * ihbar) * num (occ n k) * (cf k * lmul d (mat op) (tiers dims a (less k n)) i j - rconj (cf k) * rmult d (tiers dims a (less k n)) (mat op) i j))%S) (seq 0 m)) as (ls & Ek & F).
  { intros k Hk. apply in_seq in Hk. apply diff_k2_sums; auto; lia. }
  pose proof (sums_app K dims d _ _ a _ _ (diff_ij_sums a R) (sums_app K dims d _ _ a _ _ Sn (sums_concat K dims d _ _ _ _ F))) as T.
  destruct (sums_apply K dims d _ a _ R T) as (b & Eb & Rb & Gb).
  eexists. exists b. split.
  { unfold diff2. rewrite En. cbn [bind]. unfold k_max. rewrite Ek. cbn [bind]. reflexivity. }
  split; [exact Eb|]. split; [exact Rb|]. intros n i j Hn Hi Hj. rewrite Gb by auto. unfold plain_rhs. unfold sumn at 3 4.
  rewrite sumL_add. fold (sumn m (fun k => num (occ n k) * nth k gamma r0)%S). ring.
Qed.

Theorem plain_ok : exists l, diff2 K im ihbar sq dims h op gamma symm asymm close0 = Ok l /\ forall a, rep K dims d a ->
  exists b, apply_terms l a = Ok b /\ rep K dims d b /\
    forall n i j, in_range n dims -> i < d -> j < d ->
      get b (n ++ [i; j]) = plain_rhs im ihbar d m (mat h) (mat h) (mat op) (mat op) (fun k => nth k gamma r0) (fun k => cf k) (fun k => rconj (cf k)) (tiers dims a) n i j.
Proof.
  destruct (plain_ok_at (zeros (dims ++ [d; d]))) as (l & _ & E & _); [split; [apply wf_build|reflexivity]|].
  exists l. split; auto. intros a R. destruct (plain_ok_at a R) as (l' & b & E' & H). assert (l' = l) by congruence. subst l'. exists b. exact H.
Qed.

(** ** eom.py *)
Hypothesis S0 : sq 0 = r0.

Lemma diff_n1_sums a : rep K dims d a ->
  exists l, diff_n1 K dims gamma = Ok l /\
    sums K dims d l a (fun n i j => - sumn m (fun k => num (occ n k) * nth k gamma r0) * tiers dims a n i j)%S.
Proof.
  intros R. unfold diff_n1.
  destruct (map_res_ok (fun p : nat * K => let! n := numberer K dims (fst p) in Ok [(fst p, arr_scale (- snd p)%S n)])
    (fun p t => computes K dims d t a (fun n i j => - (num (occ n (fst p)) * nth (fst p) gamma r0) * tiers dims a n i j)%S)
    (combine (seq 0 (length gamma)) gamma)) as (ls & E & F).
  - intros (k, g) Hin. destruct (In_nth _ _ (0, r0) Hin) as (x & Hx & Ex). rewrite combine_length, seq_length in Hx.
    rewrite combine_nth in Ex by apply seq_length. rewrite seq_nth in Ex by lia. cbn [Nat.add] in Ex. injection Ex as <- <-. cbn [fst snd].
    destruct (numberer_ok x) as (nn & En & Tn & _); [lia|]. rewrite En. cbn [bind]. eexists. split; [reflexivity|].
    destruct (one_k K dims d a x (arr_scale (- nth x gamma r0)%S nn) _ _ _ R ltac:(lia) (tri_scale K _ _ _ _ _ _ Tn) ltac:(cbn beta; ring)) as (c & Ec & Rc & Gc).
    exists c. split; auto. split; auto. intros n i j Hn Hi Hj. rewrite Gc by auto. unfold kact. rewrite nr_num. ring.
  - exists ls. split; [exact E|]. exists (map (fun p n i j => - (num (occ n (fst p)) * nth (fst p) gamma r0) * tiers dims a n i j)%S (combine (seq 0 (length gamma)) gamma)).
    split.
    + clear E. induction F; cbn [map]; constructor; auto.
    + intros n i j Hn Hi Hj. cbn beta. rewrite sumL_map. unfold sumn. rewrite <- sumL_opp, <- sumL_scal_r.
      rewrite <- (sumL_map K fst (combine (seq 0 (length gamma)) gamma) (fun k => - (num (occ n k) * nth k gamma r0) * tiers dims a n i j)%S).
      rewrite Lg. replace (map fst (combine (seq 0 m) gamma)) with (seq 0 m); [reflexivity|]. symmetry.
      generalize (seq_length m 0). rewrite <- Lg. generalize (seq 0 (length gamma)). clear. intros l. revert gamma. induction l as [|x l IH]; intros [|g gamma] L; try discriminate L; [reflexivity|].
      cbn. f_equal. apply IH. cbn in L. lia.
Qed.

Lemma diff_k1_sums a k : rep K dims d a -> k < m ->
  exists l, diff_k1 K im ihbar sq dims op symm asymm k = Ok l /\
    sums K dims d l a (fun n i j =>
      - (im * ihbar) * sq (pred (occ n k)) * (lmul d (tr (mat op)) (tiers dims a (less k n)) i j - rmult d (tiers dims a (less k n)) (mat op) i j)
      + - (im * ihbar) * sq (occ n k) * (cf k * lmul d (tr (mat op)) (tiers dims a (more k n)) i j - rconj (cf k) * rmult d (tiers dims a (more k n)) (mat op) i j))%S.
Proof.
  intros R Hk. unfold diff_k1, c_at, sqrt_numberer, raiser1, lower1, k_max.
  rewrite (item_nth symm k r0), (item_nth asymm k r0), (item_nth dims k 0) by lia. cbn [bind].
  destruct (diag_mul_tri K _ _ _ _ _ sq (tri_up K (nth k dims 0))) as (nl & El & Tl). rewrite El. cbn [bind].
  destruct (tri_mul_diag K _ _ _ _ _ sq (tri_dn K (nth k dims 0))) as (rn & Er & Tr). rewrite Er. cbn [bind]. eexists. split; [reflexivity|].
  set (c := cf k).
  eapply sums_ext.
  - apply sums_cons; [eapply two_i; [exact R|exact Hk|exact Hop|exact Tl|cbn [pred]; rewrite S0; ring]|].
    apply sums_cons; [eapply two_j; [exact R|exact Hk|exact Hop|exact Tl|cbn [pred]; rewrite S0; ring]|].
    apply sums_cons; [eapply two_i; [exact R|exact Hk|exact Hop|exact Tr|cbn beta; ring]|].
    apply sums_cons; [eapply two_j; [exact R|exact Hk|exact Hop|exact Tr|cbn beta; ring]|apply sums_nil].
  - intros n i j Hn Hi Hj. cbn beta. unfold kact, lmul, rmult, tr, mat.
    set (T := tiers dims a).
    rewrite (sumn_ext K d (fun x => _ * get (arr_scale (- im * ihbar) op) [x; i])%S (fun x => T (less k n) x j * (- im * ihbar * sq (pred (occ n k)) * get op [x; i]))%S)
      by (intros x Hx; rewrite get_scale by auto; ring).
    rewrite (sumn_ext K d (fun x => _ * get (arr_scale (im * ihbar) op) [x; j])%S (fun x => T (less k n) i x * (im * ihbar * sq (pred (occ n k)) * get op [x; j]))%S)
      by (intros x Hx; rewrite get_scale by auto; ring).
    rewrite (sumn_ext K d (fun x => _ * get (arr_scale (- im * ihbar * c) op) [x; i])%S (fun x => T (more k n) x j * (- im * ihbar * c * sq (occ n k) * get op [x; i]))%S)
      by (intros x Hx; rewrite get_scale by auto; ring).
    rewrite (sumn_ext K d (fun x => _ * get (arr_scale (im * ihbar * rconj c) op) [x; j])%S (fun x => T (more k n) i x * (im * ihbar * rconj c * sq (occ n k) * get op [x; j]))%S)
      by (intros x Hx; rewrite get_scale by auto; ring).
    rewrite !sum_left.
    rewrite (sumn_ext K d (fun x => T (more k n) i x * get op [x; j])%S (fun x => get op [x; j] * T (more k n) i x)%S) by (intros; ring).
    rewrite (sumn_ext K d (fun x => T (less k n) i x * get op [x; j])%S (fun x => get op [x; j] * T (less k n) i x)%S) by (intros; ring).
    ring.
Qed.

Theorem shifted_ok : exists l, diff1 K im ihbar sq dims h op gamma symm asymm = Ok l /\ forall a, rep K dims d a ->
  exists b, apply_terms l a = Ok b /\ rep K dims d b /\
    forall n i j, in_range n dims -> i < d -> j < d ->
      get b (n ++ [i; j]) = shifted_rhs im ihbar sq d m (mat h) (mat h) (tr (mat op)) (mat op) (fun k => nth k gamma r0) (fun k => cf k) (fun k => rconj (cf k)) (tiers dims a) n i j.
Proof.
  assert (X : forall a, rep K dims d a -> exists l b, diff1 K im ihbar sq dims h op gamma symm asymm = Ok l /\ apply_terms l a = Ok b /\ rep K dims d b /\
    forall n i j, in_range n dims -> i < d -> j < d ->
      get b (n ++ [i; j]) = shifted_rhs im ihbar sq d m (mat h) (mat h) (tr (mat op)) (mat op) (fun k => nth k gamma r0) (fun k => cf k) (fun k => rconj (cf k)) (tiers dims a) n i j).
  { intros a R. destruct (diff_n1_sums a R) as (ln & En & Sn).
    destruct (map_res_ok (diff_k1 K im ihbar sq dims op symm asymm) (fun k l => sums K dims d l a (fun n i j =>
      - (im * ihbar) * sq (pred (occ n k)) * (lmul d (tr (mat op)) (tiers dims a (less k n)) i j - rmult d (tiers dims a (less k n)) (mat op) i j)
      + - (im * ihbar) * sq (occ n k) * (cf k * lmul d (tr (mat op)) (tiers dims a (more k n)) i j - rconj (cf k) * rmult d (tiers dims a (more k n)) (mat op) i j))%S) (seq 0 m)) as (ls & Ek & F).
    { intros k Hk. apply in_seq in Hk. apply diff_k1_sums; auto; lia. }
    pose proof (sums_app K dims d _ _ a _ _ (diff_ij_sums a R) (sums_app K dims d _ _ a _ _ Sn (sums_concat K dims d _ _ _ _ F))) as T.
    destruct (sums_apply K dims d _ a _ R T) as (b & Eb & Rb & Gb).
    eexists. exists b. split.
    { unfold diff1. rewrite En. cbn [bind]. unfold k_max. rewrite Ek. cbn [bind]. reflexivity. }
    split; [exact Eb|]. split; [exact Rb|]. intros n i j Hn Hi Hj. rewrite Gb by auto. unfold shifted_rhs. unfold sumn at 3 4.
    rewrite sumL_add. fold (sumn m (fun k => num (occ n k) * nth k gamma r0)%S). ring. }
  destruct (X (zeros (dims ++ [d; d]))) as (l & _ & E & _); [split; [apply wf_build|reflexivity]|].
  exists l. split; auto. intros a R. destruct (X a R) as (l' & b & E' & H). assert (l' = l) by congruence. subst l'. exists b. exact H.
Qed.
End Plain.

(** ** hierachy.py *)
Section Scaled.
Variable K : StarRing.
Add Ring Kr3 : (r_theory K).
Variables (im : K) (sq : nat -> K) (dims : list nat) (d : nat) (h op : arr K) (der coeff ccoeff : list K) (scale iscale : K).
Hypothesis Hh : shape h = [d; d].
Hypothesis Hop : shape op = [d; d].
Hypothesis Lg : length der = length dims.
Hypothesis Lc : length coeff = length dims.
Hypothesis Lcc : length ccoeff = length dims.
Hypothesis S0 : sq 0 = r0.
Notation m := (length dims).

Lemma diff_k3_sums a k : rep K dims d a -> k < m ->
  exists l, diff_k3 K im sq dims op der coeff ccoeff scale iscale k = Ok l /\
    sums K dims d l a (fun n i j =>
      num (occ n k) * nth k der r0 * tiers dims a n i j
      + (- im * (scale * sq (S (occ n k))) * (lmul d (tr (mat op)) (tiers dims a (more k n)) i j - rmult d (tiers dims a (more k n)) (mat op) i j)
      + - im * (iscale * sq (occ n k)) * (nth k coeff r0 * lmul d (tr (mat op)) (tiers dims a (less k n)) i j - nth k ccoeff r0 * rmult d (tiers dims a (less k n)) (mat op) i j)))%S.
Proof.
  intros R Hk. unfold diff_k3, raiser3, lower3, k_max.
  rewrite (item_nth coeff k r0), (item_nth ccoeff k r0), (item_nth der k r0) by lia. cbn [bind].
  destruct (numberer_ok K dims k Hk) as (nn & En & Tn & _). rewrite En. cbn [bind]. rewrite (item_nth dims k 0) by lia. cbn [bind].
  destruct (tri_mul_diag K _ _ _ _ _ sq (tri_up K (nth k dims 0))) as (r & Er & Tr). rewrite Er. cbn [bind].
  destruct (diag_mul_tri K _ _ _ _ _ sq (tri_dn K (nth k dims 0))) as (l & El & Tl). rewrite El. cbn [bind].
  pose proof (matmul_wf K _ _ _ Er) as Wr. pose proof (matmul_wf K _ _ _ El) as Wl.
  destruct (tri_add K _ _ _ _ _ _ _ _ _ (wf_scale K (nth k coeff r0 * iscale)%S r Wr) (wf_scale K scale l Wl) (tri_scale K _ _ _ _ _ _ Tr) (tri_scale K _ _ _ _ _ _ Tl)) as (m1 & E1 & T1).
  destruct (tri_add K _ _ _ _ _ _ _ _ _ (wf_scale K (nth k ccoeff r0 * iscale)%S r Wr) (wf_scale K scale l Wl) (tri_scale K _ _ _ _ _ _ Tr) (tri_scale K _ _ _ _ _ _ Tl)) as (m2 & E2 & T2).
  rewrite E1. cbn [bind]. rewrite E2. cbn [bind]. eexists. split; [reflexivity|].
  eapply sums_ext.
  - apply sums_cons; [eapply one_k; [exact R|exact Hk|apply tri_scale; exact Tn|cbn beta; ring]|].
    apply sums_cons; [eapply two_i; [exact R|exact Hk|exact Hop|exact T1|cbn beta; rewrite S0; ring]|].
    apply sums_cons; [eapply two_j; [exact R|exact Hk|exact Hop|exact T2|cbn beta; rewrite S0; ring]|apply sums_nil].
  - intros n i j Hn Hi Hj. cbn beta. unfold kact, lmul, rmult, tr, mat. rewrite nr_num.
    set (T := tiers dims a). set (c := nth k coeff r0). set (c' := nth k ccoeff r0).
    rewrite (sumn_ext K d (fun x => _ * get (arr_scale (- im) op) [x; i])%S
      (fun x => T (more k n) x j * (- im * (scale * sq (S (occ n k))) * get op [x; i]) + T (less k n) x j * (- im * (c * iscale * sq (occ n k)) * get op [x; i]))%S)
      by (intros x Hx; rewrite get_scale by auto; ring).
    rewrite (sumn_ext K d (fun x => _ * get (arr_scale im op) [x; j])%S
      (fun x => T (more k n) i x * (im * (scale * sq (S (occ n k))) * get op [x; j]) + T (less k n) i x * (im * (c' * iscale * sq (occ n k)) * get op [x; j]))%S)
      by (intros x Hx; rewrite get_scale by auto; ring).
    rewrite !sumn_add, !sum_left.
    rewrite (sumn_ext K d (fun x => T (more k n) i x * get op [x; j])%S (fun x => get op [x; j] * T (more k n) i x)%S) by (intros; ring).
    rewrite (sumn_ext K d (fun x => T (less k n) i x * get op [x; j])%S (fun x => get op [x; j] * T (less k n) i x)%S) by (intros; ring).
    ring.
Qed.

Theorem scaled_ok : exists l, diff3 K im sq dims h op der coeff ccoeff scale iscale = Ok l /\ forall a, rep K dims d a ->
  exists b, apply_terms l a = Ok b /\ rep K dims d b /\
    forall n i j, in_range n dims -> i < d -> j < d ->
      get b (n ++ [i; j]) = scaled_rhs im sq scale iscale d m (tr (mat h)) (mat h) (tr (mat op)) (mat op) (fun k => - nth k der r0)%S (fun k => nth k coeff r0) (fun k => nth k ccoeff r0) (tiers dims a) n i j.
Proof.
  assert (X : forall a, rep K dims d a -> exists l b, diff3 K im sq dims h op der coeff ccoeff scale iscale = Ok l /\ apply_terms l a = Ok b /\ rep K dims d b /\
    forall n i j, in_range n dims -> i < d -> j < d ->
      get b (n ++ [i; j]) = scaled_rhs im sq scale iscale d m (tr (mat h)) (mat h) (tr (mat op)) (mat op) (fun k => - nth k der r0)%S (fun k => nth k coeff r0) (fun k => nth k ccoeff r0) (tiers dims a) n i j).
  { intros a R.
    assert (Sh : sums K dims d [ [(m, arr_scale (- im)%S h)]; [(m + 1, arr_scale im h)] ] a
      (fun n i j => - im * (lmul d (tr (mat h)) (tiers dims a n) i j - rmult d (tiers dims a n) (mat h) i j))%S).
    { eapply sums_ext; [apply sums_cons; [apply one_i; auto|]; apply sums_cons; [apply one_j; auto|apply sums_nil]|].
      intros n i j Hn Hi Hj. cbn beta. unfold lmul, rmult, tr, mat.
      rewrite (sumn_ext K d _ (fun x => tiers dims a n x j * (- im * get h [x; i]))%S) by (intros x Hx; rewrite get_scale by auto; reflexivity).
      rewrite sum_left. rewrite (sumn_ext K d (fun x => rmul (tiers dims a n i x) _) (fun x => tiers dims a n i x * (im * get h [x; j]))%S)
        by (intros x Hx; rewrite get_scale; reflexivity).
      rewrite sum_right. ring. }
    destruct (map_res_ok (diff_k3 K im sq dims op der coeff ccoeff scale iscale) (fun k l => sums K dims d l a (fun n i j =>
      num (occ n k) * nth k der r0 * tiers dims a n i j
      + (- im * (scale * sq (S (occ n k))) * (lmul d (tr (mat op)) (tiers dims a (more k n)) i j - rmult d (tiers dims a (more k n)) (mat op) i j)
      + - im * (iscale * sq (occ n k)) * (nth k coeff r0 * lmul d (tr (mat op)) (tiers dims a (less k n)) i j - nth k ccoeff r0 * rmult d (tiers dims a (less k n)) (mat op) i j)))%S) (seq 0 m)) as (ls & Ek & F).
    { intros k Hk. apply in_seq in Hk. apply diff_k3_sums; auto; lia. }
    pose proof (sums_app K dims d _ _ a _ _ Sh (sums_concat K dims d _ _ _ _ F)) as T.
    destruct (sums_apply K dims d _ a _ R T) as (b & Eb & Rb & Gb).
    eexists. exists b. split.
    { unfold diff3, k_max. rewrite Ek. cbn [bind]. reflexivity. }
    split; [exact Eb|]. split; [exact Rb|]. intros n i j Hn Hi Hj. rewrite Gb by auto. unfold scaled_rhs.
    rewrite !sumL_add, sumL_scal_r.
    replace (sumn m (fun k => num (occ n k) * - nth k der r0))%S with (- sumL (seq 0 m) (fun k => num (occ n k) * nth k der r0))%S.
    2: { unfold sumn. rewrite <- sumL_opp. apply sumL_ext. intros. ring. }
    unfold sumn. ring. }
  destruct (X (zeros (dims ++ [d; d]))) as (l & _ & E & _); [split; [apply wf_build|reflexivity]|].
  exists l. split; auto. intros a R. destruct (X a R) as (l' & b & E' & H). assert (l' = l) by congruence. subst l'. exists b. exact H.
Qed.
End Scaled.
