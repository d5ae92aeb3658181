(** Scalars: commutative rings with an involution, and finite sums.

    This stands for exact complex (or real) arithmetic of numpy scalars;
    rounding is not modelled.  The laws are fields of the record, so a theorem
    quantifying over [StarRing] holds for every such ring and uses no axiom. *)
From Coq Require Import List Arith Lia ZArith Ring Permutation.
Import ListNotations.

Record StarRing : Type := {
  car :> Type;
  r0 : car;
  r1 : car;
  radd : car -> car -> car;
  rmul : car -> car -> car;
  rsub : car -> car -> car;
  ropp : car -> car;
  rconj : car -> car;
  r_theory : ring_theory r0 r1 radd rmul rsub ropp (@eq car);
  rconj_add : forall x y, rconj (radd x y) = radd (rconj x) (rconj y);
  rconj_mul : forall x y, rconj (rmul x y) = rmul (rconj x) (rconj y);
  rconj_invol : forall x, rconj (rconj x) = x
}.
Arguments r0 {_}. Arguments r1 {_}.
Arguments radd {_} _ _. Arguments rmul {_} _ _. Arguments rsub {_} _ _.
Arguments ropp {_} _. Arguments rconj {_} _.

Declare Scope star_scope.
Delimit Scope star_scope with S.
Notation "x + y" := (radd x y) : star_scope.
Notation "x * y" := (rmul x y) : star_scope.
Notation "x - y" := (rsub x y) : star_scope.
Notation "- x" := (ropp x) : star_scope.
Notation "0" := r0 : star_scope.
Notation "1" := r1 : star_scope.
Bind Scope star_scope with car.

Section Sums.
Variable K : StarRing.
Add Ring Kring : (r_theory K).
Local Open Scope star_scope.

Fixpoint sum_list (l : list K) : K :=
  match l with [] => 0 | x :: l => x + sum_list l end.

(** Sum of [f x] for [x] in [l]. *)
Definition sumL {A} (l : list A) (f : A -> K) : K := sum_list (map f l).

(** Sum of [f i] for [i < n]. *)
Definition sumn (n : nat) (f : nat -> K) : K := sumL (seq 0 n) f.

Fixpoint prod_list (l : list K) : K :=
  match l with [] => 1 | x :: l => x * prod_list l end.

Definition prodL {A} (l : list A) (f : A -> K) : K := prod_list (map f l).

Definition delta (i j : nat) : K := if Nat.eqb i j then 1 else 0.

Lemma rconj_0 : rconj (0 : K) = 0.
Proof.
  assert (H : rconj (0:K) + rconj 0 = rconj 0 + 0).
  { rewrite <- rconj_add. replace (0 + 0 : K) with (0 : K) by ring. ring. }
  assert (E : forall a b c : K, a + b = a + c -> b = c).
  { intros a b c h. replace b with (a + b - a) by ring. rewrite h. ring. }
  eapply E; exact H.
Qed.

Lemma rconj_1 : rconj (1 : K) = 1.
Proof.
  replace (rconj 1) with (rconj 1 * rconj (rconj (1:K))).
  - rewrite <- rconj_mul. replace (1 * rconj 1 : K) with (rconj (1:K)) by ring.
    apply rconj_invol.
  - rewrite rconj_invol. ring.
Qed.

Lemma rconj_opp (x : K) : rconj (- x) = - rconj x.
Proof.
  assert (H : rconj (- x) + rconj x = 0).
  { rewrite <- rconj_add. replace (- x + x) with (0 : K) by ring. apply rconj_0. }
  replace (rconj (- x)) with (rconj (- x) + rconj x - rconj x) by ring.
  rewrite H. ring.
Qed.

Lemma rconj_sub (x y : K) : rconj (x - y) = rconj x - rconj y.
Proof.
  replace (x - y) with (x + - y) by ring. rewrite rconj_add, rconj_opp. ring.
Qed.

Lemma sumL_nil {A} (f : A -> K) : sumL [] f = 0.
Proof. reflexivity. Qed.

Lemma sumL_cons {A} (x : A) l f : sumL (x :: l) f = f x + sumL l f.
Proof. reflexivity. Qed.

Lemma sumL_app {A} (l1 l2 : list A) f : sumL (l1 ++ l2) f = sumL l1 f + sumL l2 f.
Proof.
  induction l1 as [|x l1 IH]; cbn [app].
  - rewrite sumL_nil. ring.
  - rewrite !sumL_cons, IH. ring.
Qed.

Lemma sumL_ext_in {A} (l : list A) f g :
  (forall x, In x l -> f x = g x) -> sumL l f = sumL l g.
Proof.
  induction l as [|x l IH]; intros H; [reflexivity|].
  rewrite !sumL_cons, IH, (H x); auto; intros; cbn; auto.
  apply H; cbn; auto.
Qed.

Lemma sumL_ext {A} (l : list A) f g : (forall x, f x = g x) -> sumL l f = sumL l g.
Proof. intros; apply sumL_ext_in; auto. Qed.

Lemma sumn_ext n f g : (forall i, (i < n)%nat -> f i = g i) -> sumn n f = sumn n g.
Proof.
  intros H. apply sumL_ext_in. intros x Hx. apply in_seq in Hx. apply H. lia.
Qed.

Lemma sumL_add {A} (l : list A) f g :
  sumL l (fun x => f x + g x) = sumL l f + sumL l g.
Proof.
  induction l as [|x l IH]; [cbn; ring|].
  rewrite !sumL_cons, IH. ring.
Qed.

Lemma sumL_sub {A} (l : list A) f g :
  sumL l (fun x => f x - g x) = sumL l f - sumL l g.
Proof.
  induction l as [|x l IH]; [cbn; ring|].
  rewrite !sumL_cons, IH. ring.
Qed.

Lemma sumL_opp {A} (l : list A) f : sumL l (fun x => - f x) = - sumL l f.
Proof.
  induction l as [|x l IH]; [cbn; ring|].
  rewrite !sumL_cons, IH. ring.
Qed.

Lemma sumL_zero {A} (l : list A) : sumL l (fun _ => 0) = 0.
Proof. induction l as [|x l IH]; [reflexivity|]. rewrite sumL_cons, IH. ring. Qed.

Lemma sumL_zero_in {A} (l : list A) f : (forall x, In x l -> f x = 0) -> sumL l f = 0.
Proof. intros H. rewrite (sumL_ext_in l f (fun _ => 0)); auto. apply sumL_zero. Qed.

Lemma sumL_scal_l {A} (l : list A) c f : sumL l (fun x => c * f x) = c * sumL l f.
Proof. induction l as [|x l IH]; [cbn; ring|]. rewrite !sumL_cons, IH. ring. Qed.

Lemma sumL_scal_r {A} (l : list A) c f : sumL l (fun x => f x * c) = sumL l f * c.
Proof. induction l as [|x l IH]; [cbn; ring|]. rewrite !sumL_cons, IH. ring. Qed.

Lemma sumL_swap {A B} (l : list A) (l' : list B) f :
  sumL l (fun x => sumL l' (fun y => f x y)) = sumL l' (fun y => sumL l (fun x => f x y)).
Proof.
  induction l as [|x l IH].
  - rewrite sumL_nil. symmetry. apply sumL_zero_in. reflexivity.
  - rewrite sumL_cons, IH, <- sumL_add. apply sumL_ext. intros; rewrite sumL_cons; reflexivity.
Qed.

Lemma sumL_map {A B} (h : A -> B) (l : list A) (f : B -> K) :
  sumL (map h l) f = sumL l (fun x => f (h x)).
Proof. unfold sumL. rewrite map_map. reflexivity. Qed.

Lemma sumL_flat_map {A B} (h : A -> list B) (l : list A) (f : B -> K) :
  sumL (flat_map h l) f = sumL l (fun x => sumL (h x) f).
Proof.
  induction l as [|x l IH]; [reflexivity|]. cbn [flat_map].
  rewrite sumL_app, sumL_cons, IH. reflexivity.
Qed.

Lemma sumL_perm {A} (l l' : list A) f : Permutation l l' -> sumL l f = sumL l' f.
Proof.
  induction 1; rewrite ?sumL_cons; try rewrite IHPermutation; try ring; try congruence.
Qed.

Lemma sumL_single {A} (l : list A) (a : A) f :
  NoDup l -> In a l -> (forall x, In x l -> x <> a -> f x = 0) -> sumL l f = f a.
Proof.
  induction l as [|x l IH]; intros Hn Hi Hz; [destruct Hi|].
  inversion Hn; subst. rewrite sumL_cons. destruct Hi as [->|Hi].
  - rewrite (sumL_zero_in l); [ring|]. intros y Hy. apply Hz; [right; auto|].
    intros ->. contradiction.
  - rewrite IH; auto.
    + rewrite (Hz x); [ring|left; auto|]. intros ->. contradiction.
    + intros; apply Hz; auto. right; auto.
Qed.

Lemma rconj_sumL {A} (l : list A) f : rconj (sumL l f) = sumL l (fun x => rconj (f x)).
Proof.
  induction l as [|x l IH]; [apply rconj_0|].
  rewrite !sumL_cons, rconj_add, IH. reflexivity.
Qed.

Lemma sumn_0 f : sumn 0 f = 0.
Proof. reflexivity. Qed.

Lemma sumn_S n f : sumn (S n) f = sumn n f + f n.
Proof.
  unfold sumn. rewrite seq_S, sumL_app, sumL_cons, sumL_nil. cbn. ring.
Qed.

Lemma sumn_S_l n f : sumn (S n) f = f O + sumn n (fun i => f (S i)).
Proof.
  unfold sumn. cbn [seq]. rewrite sumL_cons, <- seq_shift, sumL_map. reflexivity.
Qed.

Lemma sumn_single n a f :
  (a < n)%nat -> (forall i, (i < n)%nat -> i <> a -> f i = 0) -> sumn n f = f a.
Proof.
  intros Ha Hz. apply sumL_single.
  - apply seq_NoDup.
  - apply in_seq; lia.
  - intros x Hx Hne. apply in_seq in Hx. apply Hz; auto; lia.
Qed.

Lemma sumn_add n f g : sumn n (fun i => f i + g i) = sumn n f + sumn n g.
Proof. apply sumL_add. Qed.
Lemma sumn_scal_l n c f : sumn n (fun i => c * f i) = c * sumn n f.
Proof. apply sumL_scal_l. Qed.
Lemma sumn_scal_r n c f : sumn n (fun i => f i * c) = sumn n f * c.
Proof. apply sumL_scal_r. Qed.
Lemma sumn_swap n m f :
  sumn n (fun i => sumn m (fun j => f i j)) = sumn m (fun j => sumn n (fun i => f i j)).
Proof. apply sumL_swap. Qed.
Lemma sumn_zero n f : (forall i, (i < n)%nat -> f i = 0) -> sumn n f = 0.
Proof. intros H. apply sumL_zero_in. intros x Hx. apply in_seq in Hx. apply H; lia. Qed.
Lemma rconj_sumn n f : rconj (sumn n f) = sumn n (fun i => rconj (f i)).
Proof. apply rconj_sumL. Qed.

Lemma sumn_delta n a f : (a < n)%nat -> sumn n (fun i => delta i a * f i) = f a.
Proof.
  intros Ha. rewrite (sumn_single n a); auto.
  - unfold delta. rewrite Nat.eqb_refl. ring.
  - intros i _ Hne. unfold delta. apply Nat.eqb_neq in Hne. rewrite Hne. ring.
Qed.

Lemma delta_sym i j : delta i j = delta j i.
Proof. unfold delta. rewrite Nat.eqb_sym. reflexivity. Qed.

Lemma prodL_nil {A} (f : A -> K) : prodL [] f = 1.
Proof. reflexivity. Qed.
Lemma prodL_cons {A} (x : A) l f : prodL (x :: l) f = f x * prodL l f.
Proof. reflexivity. Qed.
Lemma prodL_app {A} (l1 l2 : list A) f : prodL (l1 ++ l2) f = prodL l1 f * prodL l2 f.
Proof.
  induction l1 as [|x l1 IH]; cbn [app].
  - rewrite prodL_nil. ring.
  - rewrite !prodL_cons, IH. ring.
Qed.
Lemma prodL_ext_in {A} (l : list A) f g :
  (forall x, In x l -> f x = g x) -> prodL l f = prodL l g.
Proof.
  induction l as [|x l IH]; intros H; [reflexivity|].
  rewrite !prodL_cons, IH, (H x); auto; intros; cbn; auto.
  apply H; cbn; auto.
Qed.
Lemma prodL_perm {A} (l l' : list A) f : Permutation l l' -> prodL l f = prodL l' f.
Proof.
  induction 1; rewrite ?prodL_cons; try rewrite IHPermutation; try ring; try congruence.
Qed.

End Sums.

Arguments sum_list {K} l.
Arguments sumL {K A} l f.
Arguments sumn {K} n f.
Arguments prod_list {K} l.
Arguments prodL {K A} l f.
Arguments delta {K} i j.

(** Integers with trivial involution. *)
Definition Z_star : StarRing.
Proof.
  refine {| car := Z; r0 := 0%Z; r1 := 1%Z; radd := Z.add; rmul := Z.mul;
            rsub := Z.sub; ropp := Z.opp; rconj := fun x => x |}.
  - exact InitialRing.Zth.
  - reflexivity.
  - reflexivity.
  - reflexivity.
Defined.

(** Gaussian integers [(re, im)], used in concrete examples. *)
Definition G_star : StarRing.
Proof.
  refine {| car := (Z * Z)%type; r0 := (0, 0)%Z; r1 := (1, 0)%Z;
            radd := fun x y => (fst x + fst y, snd x + snd y)%Z;
            rmul := fun x y => (fst x * fst y - snd x * snd y,
                                fst x * snd y + snd x * fst y)%Z;
            rsub := fun x y => (fst x - fst y, snd x - snd y)%Z;
            ropp := fun x => (- fst x, - snd x)%Z;
            rconj := fun x => (fst x, - snd x)%Z |}.
  - constructor; intros; repeat match goal with x : (Z * Z)%type |- _ => destruct x end;
      cbn [fst snd]; f_equal; lia.
  - intros [] []; cbn [fst snd]; f_equal; lia.
  - intros [] []; cbn [fst snd]; f_equal; lia.
  - intros []; cbn [fst snd]; f_equal; lia.
Defined.
