(** Products of matrices acting on all axes. *)
From Coq Require Import List Arith Lia.
From Verif Require Import Py Alg ListX NdArray_Model NdArray_Proof PoDvr_Spec Mctdh_Spec.
Import ListNotations.

Section Kron.
Context {K : StarRing}.
Add Ring Kr : (r_theory K).
Implicit Types M N : @mat K.
Implicit Types Ms Ns : list (@mat K).

Definition comp (n : nat) M N : mat := fun a c => sumn n (fun b => rmul (M a b) (N b c)).
Definition adj M : mat := fun a b => rconj (M b a).
Fixpoint comps (ns : list nat) Ms Ns : list mat :=
  match ns, Ms, Ns with
  | n :: ns, M :: Ms, N :: Ns => comp n M N :: comps ns Ms Ns
  | _, _, _ => []
  end.

Lemma length_comps : forall ns Ms Ns, length Ms = length ns -> length Ns = length ns -> length (comps ns Ms Ns) = length ns.
Proof. induction ns as [|n ns IH]; intros [|M Ms] [|N Ns]; cbn; intros; try lia. f_equal. apply IH; lia. Qed.
Lemma nth_comps : forall ns Ms Ns j d d1 d2, length Ms = length ns -> length Ns = length ns -> j < length ns ->
  nth j (comps ns Ms Ns) d = comp (nth j ns 0) (nth j Ms d1) (nth j Ns d2).
Proof. induction ns as [|n ns IH]; intros [|M Ms] [|N Ns] [|j] d d1 d2; cbn; intros; try lia; auto. apply IH; lia. Qed.

Lemma kron_comp : forall ns Ms Ns x z, length Ms = length ns -> length Ns = length ns -> length x = length ns -> length z = length ns ->
  sumL (indices ns) (fun y => rmul (kron Ms x y) (kron Ns y z)) = kron (comps ns Ms Ns) x z.
Proof.
  induction ns as [|n ns IH]; intros [|M Ms] [|N Ns] [|a x] [|c z]; cbn [length]; intros; try lia.
  - rewrite sum_indices_nil. cbn. ring.
  - rewrite sum_indices_cons. cbn [kron comps]. rewrite <- (IH Ms Ns x z) by lia. unfold comp. rewrite <- sumn_scal_r. apply sumn_ext. intros b Hb.
    rewrite <- sumL_scal_l. apply sumL_ext. intros y. ring.
Qed.

Lemma kron_ext : forall (xs ys : list nat) Ms Ns x y, length Ms = length xs -> length Ns = length xs -> in_range x xs -> in_range y ys -> length ys = length xs ->
  (forall j a b, j < length xs -> a < nth j xs 0 -> b < nth j ys 0 -> nth j Ms no_mat a b = nth j Ns no_mat a b) ->
  kron Ms x y = kron Ns x y.
Proof.
  intros xs ys Ms Ns x y L1 L2 R. revert ys Ms Ns y L1 L2.
  induction R as [|a n x xs Ha R IH]; intros ys Ms Ns y L1 L2 Ry L H; destruct Ms as [|M Ms], Ns as [|N Ns]; cbn in L1, L2; try lia; auto.
  inversion Ry as [|b m y' ys' Hb Ry' E1 E2]; subst; cbn in L; try lia. cbn [kron]. f_equal.
  - apply (H 0 a b); cbn; lia.
  - apply (IH ys' Ms Ns y'); auto; try lia. intros j a' b' Hj. apply (H (S j)). cbn. lia.
Qed.

Lemma kron_conj : forall Ms x y, rconj (kron Ms x y) = kron (map adj Ms) y x.
Proof. induction Ms as [|M Ms IH]; intros [|a x] [|b y]; cbn; try apply rconj_1. rewrite rconj_mul, IH. reflexivity. Qed.

Lemma kron_delta : forall (xs : list nat) x (A : list nat -> K), in_range x xs ->
  sumL (indices xs) (fun y => rmul (kron (map (fun _ => delta) xs) x y) (A y)) = A x.
Proof.
  intros xs x A R. revert A. induction R as [|a n x xs Ha R IH]; intros A.
  - rewrite sum_indices_nil. cbn. ring.
  - rewrite sum_indices_cons. cbn [map kron]. rewrite (sumn_single _ _ a); auto.
    + replace (delta a a : K) with (r1 : K) by (unfold delta; now rewrite Nat.eqb_refl). rewrite <- (IH (fun y => A (a :: y))). apply sumL_ext. intros y. ring.
    + intros b Hb Nb. apply sumL_zero_in. intros y _. unfold delta. destruct (a =? b) eqn:E; [apply Nat.eqb_eq in E; congruence|]. ring.
Qed.

Lemma kron_axis : forall i q M Ms x y, i < length Ms -> length x = length Ms -> length y = length Ms ->
  sumn q (fun k => rmul (M (nth i x 0) k) (kron Ms (upd i k x) y)) = kron (upd i (comp q M (nth i Ms no_mat)) Ms) x y.
Proof.
  induction i as [|i IH]; intros q M [|N Ms] [|a x] [|b y] Hi Lx Ly; cbn [length] in *; try lia.
  - unfold upd. cbn [length Nat.ltb Nat.leb firstn skipn app nth kron]. unfold comp. rewrite <- sumn_scal_r. apply sumn_ext. intros. ring.
  - assert (U : forall {A} (z w : A) l, i < length l -> upd (S i) z (w :: l) = w :: upd i z l).
    { intros A z w l Hl. unfold upd. cbn [length]. replace (S i <? S (length l)) with true by (symmetry; apply Nat.ltb_lt; lia). replace (i <? length l) with true by (symmetry; apply Nat.ltb_lt; lia). reflexivity. }
    rewrite U by lia. cbn [nth kron]. rewrite <- (IH q M Ms x y) by lia. rewrite <- sumn_scal_l. apply sumn_ext. intros k Hk. rewrite U by lia. cbn [kron]. ring.
Qed.

Lemma axis_psi i q M Ms ms A x : i < length Ms -> length x = length Ms -> length ms = length Ms ->
  on_axis i q M (psi Ms ms A) x = psi (upd i (comp q M (nth i Ms no_mat)) Ms) ms A x.
Proof.
  intros Hi Lx Lm. unfold on_axis, psi. erewrite sumn_ext by (intros; rewrite <- sumL_scal_l; reflexivity). unfold sumn. rewrite sumL_swap.
  apply sumL_ext_in. intros y Hy. apply in_indices, in_range_len in Hy. rewrite <- (kron_axis i q M Ms x y) by lia. rewrite <- sumn_scal_r. unfold sumn. apply sumL_ext. intros k. ring.
Qed.

Lemma psi_ext (ns ms : list nat) Ms Ns A x : length Ms = length ns -> length Ns = length ns -> length ms = length ns -> in_range x ns ->
  (forall j a b, j < length ns -> a < nth j ns 0 -> b < nth j ms 0 -> nth j Ms no_mat a b = nth j Ns no_mat a b) ->
  psi Ms ms A x = psi Ns ms A x.
Proof. intros L1 L2 L3 R H. apply sumL_ext_in. intros y Hy. apply in_indices in Hy. f_equal. apply (kron_ext ns ms); auto. Qed.

Lemma psi_comp (ns ms : list nat) Ms Ns A x : length Ms = length ns -> length Ns = length ns -> length ms = length ns -> length x = length ns ->
  sumL (indices ns) (fun n => rmul (kron Ms x n) (psi Ns ms A n)) = psi (comps ns Ms Ns) ms A x.
Proof.
  intros L1 L2 L3 Lx. unfold psi. erewrite sumL_ext by (intros; rewrite <- sumL_scal_l; reflexivity). rewrite sumL_swap. apply sumL_ext_in. intros m Hm. apply in_indices, in_range_len in Hm.
  rewrite <- kron_comp by lia. rewrite <- sumL_scal_r. apply sumL_ext. intros. ring.
Qed.

(** The scalar product of two wavefunctions, in terms of the tensors. *)
Lemma braket_psi (ns ms : list nat) Fs A (g : list nat -> K) : length Fs = length ns -> length ms = length ns ->
  braket ns (psi Fs ms A) g = sumL (indices ms) (fun m => rmul (rconj (A m)) (sumL (indices ns) (fun n => rmul (kron (map adj Fs) m n) (g n)))).
Proof.
  intros L1 L2. unfold braket, psi. erewrite sumL_ext by (intros; rewrite rconj_sumL, <- sumL_scal_r; reflexivity). rewrite sumL_swap. apply sumL_ext. intros m.
  rewrite <- sumL_scal_l. apply sumL_ext. intros n. rewrite rconj_mul, kron_conj. ring.
Qed.
Lemma braket_psi_psi (ns ms : list nat) Fs Gs A B : length Fs = length ns -> length Gs = length ns -> length ms = length ns ->
  braket ns (psi Fs ms A) (psi Gs ms B) = braket ms A (psi (comps ns (map adj Fs) Gs) ms B).
Proof.
  intros L1 L2 L3. rewrite braket_psi by auto. unfold braket. apply sumL_ext_in. intros m Hm. apply in_indices, in_range_len in Hm. f_equal.
  apply psi_comp; try lia. rewrite map_length; lia.
Qed.
End Kron.
