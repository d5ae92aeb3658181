(** The Heisenberg chain. *)
From Coq Require Import String Ascii List Arith Bool Lia Ring.
From Verif Require Import Py Alg Ord ListX NdArray_Model NdArray_Proof Mps_Model Mps_Spec Mps_Proof MpsEnv_Proof.
Import ListNotations.
Local Open Scope nat_scope.
Notation length := Datatypes.length.

Section P.
Variable K : StarRing.
Add Ring Kheis : (r_theory K).
Local Open Scope star_scope.
Variable half : K.
Variables J Jz h : K.

Definition row4 (c s t : nat) : K :=
  match c with O => - h * s_z half s t | 1%nat => J * half * s_m s t | 2%nat => J * half * s_p s t | 3%nat => Jz * half * s_z half s t | _ => s_id s t end.
Definition col0 (r s t : nat) : K :=
  match r with O => s_id s t | 1%nat => s_p s t | 2%nat => s_m s t | _ => s_z half s t end.

Ltac two s := destruct s as [|[|s]]; [| |lia].
Ltac ent := intros; repeat match goal with H : (?s < 2)%nat |- _ => two s; clear H end; cbv [get W_first W_mid W_last block last_row concat map app data shape length nth arr_scale op_I op_Z op_Sz op_Sp op_Sm mat2 ravel prod Nat.mul Nat.add row4 col0 s_z s_m s_p s_id Nat.eqb andb]; ring.

Lemma first_row c s t : (c < 5)%nat -> (s < 2)%nat -> (t < 2)%nat -> get (W_first half J Jz h) [O; c; s; t] = row4 c s t.
Proof. intros H. do 5 (destruct c as [|c]; [ent|]). lia. Qed.
Lemma mid_row4 c s t : (c < 5)%nat -> (s < 2)%nat -> (t < 2)%nat -> get (W_mid half J Jz h) [4%nat; c; s; t] = row4 c s t.
Proof. intros H. do 5 (destruct c as [|c]; [ent|]). lia. Qed.
Lemma mid_row r c s t : (r < 4)%nat -> (c < 5)%nat -> (s < 2)%nat -> (t < 2)%nat -> get (W_mid half J Jz h) [r; c; s; t] = if (c =? 0)%nat then col0 r s t else 0.
Proof. intros H H'. do 4 (destruct r as [|r]; [do 5 (destruct c as [|c]; [ent|]); lia|]). lia. Qed.
Lemma last_col r s t : (r < 4)%nat -> (s < 2)%nat -> (t < 2)%nat -> get (W_last half h) [r; O; s; t] = col0 r s t.
Proof. intros H. do 4 (destruct r as [|r]; [ent|]). lia. Qed.
Lemma last_col4 s t : (s < 2)%nat -> (t < 2)%nat -> get (W_last half h) [4%nat; O; s; t] = - h * s_z half s t.
Proof. ent. Qed.

(** ** Products over the sites *)
Lemma product_cons n (f : nat -> nat -> nat -> K) s ss t ts : product_op (S n) f (s :: ss) (t :: ts) = f O s t * product_op n (fun x => f (S x)) ss ts.
Proof. unfold product_op. cbn [seq]. rewrite <- seq_shift. unfold prodL. cbn [map prod_list nth]. rewrite map_map. reflexivity. Qed.
Lemma product_ext n (f g : nat -> nat -> nat -> K) ss ts : (forall x s t, f x s t = g x s t) -> product_op n f ss ts = product_op n g ss ts.
Proof. intros H. unfold product_op, prodL. f_equal. apply map_ext. intros; apply H. Qed.

Definition ids n ss ts : K := product_op n (fun _ => s_id) ss ts.
Lemma at_site_0 n o s ss t ts : at_site (S n) O o (s :: ss) (t :: ts) = (o s t * ids n ss ts : K).
Proof. unfold at_site. rewrite product_cons. reflexivity. Qed.
Lemma at_site_S n x o s ss t ts : at_site (S n) (S x) o (s :: ss) (t :: ts) = (s_id s t * at_site n x o ss ts : K).
Proof. unfold at_site. rewrite product_cons. reflexivity. Qed.
Lemma at_pair_0 n o o' s ss t ts : at_pair (S n) O o o' (s :: ss) (t :: ts) = (o s t * at_site n O o' ss ts : K).
Proof. unfold at_pair. rewrite product_cons. reflexivity. Qed.
Lemma at_pair_S n x o o' s ss t ts : at_pair (S n) (S x) o o' (s :: ss) (t :: ts) = (s_id s t * at_pair n x o o' ss ts : K).
Proof. unfold at_pair. rewrite product_cons. reflexivity. Qed.

Notation H n := (spin_chain half n (J * half) (Jz * half) h).
Lemma chain_one s t : H 1%nat [s] [t] = - h * s_z half s t.
Proof.
  unfold spin_chain. cbn [Nat.sub]. rewrite sumn_0, sumn_S_l, sumn_0, at_site_0. unfold ids, product_op, prodL. cbn [seq map prod_list]. ring.
Qed.
Lemma chain_cons n s ss t ts : H (S (S n)) (s :: ss) (t :: ts) =
  - h * s_z half s t * ids (S n) ss ts + J * half * s_m s t * at_site (S n) O s_p ss ts + J * half * s_p s t * at_site (S n) O s_m ss ts
  + Jz * half * s_z half s t * at_site (S n) O (s_z half) ss ts + s_id s t * H (S n) ss ts.
Proof.
  unfold spin_chain. cbn [Nat.sub]. rewrite Nat.sub_0_r. rewrite !sumn_S_l with (n := n). rewrite (sumn_S_l K (S n)).
  rewrite !at_pair_0, at_site_0.
  rewrite (sumn_ext K n (fun i => J * half * (at_pair (S (S n)) (S i) s_p s_m (s :: ss) (t :: ts) + at_pair (S (S n)) (S i) s_m s_p (s :: ss) (t :: ts)) + Jz * half * at_pair (S (S n)) (S i) (s_z half) (s_z half) (s :: ss) (t :: ts))
    (fun i => s_id s t * (J * half * (at_pair (S n) i s_p s_m ss ts + at_pair (S n) i s_m s_p ss ts) + Jz * half * at_pair (S n) i (s_z half) (s_z half) ss ts))) by (intros; rewrite !at_pair_S; ring).
  rewrite (sumn_ext K (S n) (fun i => h * at_site (S (S n)) (S i) (s_z half) (s :: ss) (t :: ts)) (fun i => s_id s t * (h * at_site (S n) i (s_z half) ss ts))) by (intros; rewrite at_site_S; ring).
  rewrite !sumn_scal_l. rewrite (sumn_S_l K n (fun i => at_site (S n) i (s_z half) ss ts)). ring.
Qed.

(** ** The rest of the chain, seen from the bond value [r] *)
Definition rest n : list (arr K) := repeat (W_mid half J Jz h) n ++ [W_last half h].
Definition below (l : list nat) := Forall (fun s => (s < 2)%nat) l.

Lemma oper_last (r s t : nat) : oper [W_last half h] [s] [t] r O = get (W_last half h) [r; O; s; t].
Proof. apply (oper_one K (W_last half h) 5 1 2 2); [reflexivity|lia]. Qed.
Lemma oper_mid r n s ss t ts : oper (W_mid half J Jz h :: rest n) (s :: ss) (t :: ts) r O = sumn 5 (fun c => get (W_mid half J Jz h) [r; c; s; t] * oper (rest n) ss ts c O).
Proof. reflexivity. Qed.

Lemma rest_ok n ss ts : length ss = S n -> length ts = S n -> below ss -> below ts ->
  oper (rest n) ss ts O O = ids (S n) ss ts /\ oper (rest n) ss ts 1 O = at_site (S n) O s_p ss ts /\ oper (rest n) ss ts 2 O = at_site (S n) O s_m ss ts /\
  oper (rest n) ss ts 3 O = at_site (S n) O (s_z half) ss ts /\ oper (rest n) ss ts 4 O = H (S n) ss ts.
Proof.
  revert ss ts. induction n as [|n IH]; intros ss ts Ls Lt Bs Bt; destruct ss as [|s ss]; try discriminate; destruct ts as [|t ts]; try discriminate.
  - destruct ss; try discriminate. destruct ts; try discriminate. apply Forall_inv in Bs, Bt. cbn [rest repeat app].
    rewrite !oper_last, !last_col, last_col4, chain_one, !at_site_0 by (auto; lia).
    unfold ids. rewrite product_cons. unfold product_op, prodL. cbn [seq map prod_list col0]. repeat split; ring.
  - pose proof (Forall_inv Bs) as Hs. pose proof (Forall_inv Bt) as Ht. apply Forall_inv_tail in Bs, Bt.
    injection Ls as Ls. injection Lt as Lt. destruct (IH ss ts Ls Lt Bs Bt) as (I0 & I1 & I2 & I3 & I4).
    change (rest (S n)) with (W_mid half J Jz h :: rest n). rewrite !oper_mid.
    assert (C : forall r, (r < 4)%nat -> sumn 5 (fun c => get (W_mid half J Jz h) [r; c; s; t] * oper (rest n) ss ts c O) = col0 r s t * ids (S n) ss ts).
    { intros r Hr. rewrite !sumn_S_l, sumn_0. rewrite !mid_row by (auto; lia). cbn [Nat.eqb]. rewrite I0. ring. }
    rewrite !C by lia. rewrite !at_site_0. unfold ids at 2. rewrite product_cons. fold (ids (S n) ss ts).
    repeat split; try reflexivity. rewrite chain_cons, !sumn_S_l, sumn_0, !mid_row4 by (auto; lia). cbn [row4]. rewrite I0, I1, I2, I3, I4. ring.
Qed.

Theorem heisenberg_ok n ss ts : (2 <= n)%nat -> length ss = n -> length ts = n -> below ss -> below ts ->
  dense_op (heisenberg half n J Jz h) ss ts = H n ss ts.
Proof.
  intros Hn Ls Lt Bs Bt. destruct n as [|[|n]]; try lia. unfold heisenberg. cbn [Nat.sub]. rewrite Nat.sub_0_r. change (repeat (W_mid half J Jz h) n ++ [W_last half h]) with (rest n).
  destruct ss as [|s ss]; try discriminate. destruct ts as [|t ts]; try discriminate.
  pose proof (Forall_inv Bs) as Hs. pose proof (Forall_inv Bt) as Ht. apply Forall_inv_tail in Bs, Bt. injection Ls as Ls. injection Lt as Lt.
  destruct (rest_ok n ss ts Ls Lt Bs Bt) as (I0 & I1 & I2 & I3 & I4).
  change (dense_op (W_first half J Jz h :: rest n) (s :: ss) (t :: ts)) with (sumn 5 (fun c => get (W_first half J Jz h) [O; c; s; t] * oper (rest n) ss ts c O)).
  rewrite chain_cons, !sumn_S_l, sumn_0, !first_row by (auto; lia). cbn [row4]. rewrite I0, I1, I2, I3, I4. ring.
Qed.

(** ** Shapes *)
Definition hbond (n x : nat) : nat := if (x =? 0)%nat then 1%nat else if (x =? n)%nat then 1%nat else 5%nat.
Lemma rest_fits n p N : (0 < p)%nat -> (p + S n = N)%nat -> fits_op (fun _ => 2%nat) (fun _ => 2%nat) (hbond N) p (rest n).
Proof.
  revert p. induction n as [|n IH]; intros p Hp E; cbn [rest repeat app fits_op].
  - split; auto. split; [reflexivity|]. unfold hbond. destruct (Nat.eqb_spec p 0); [lia|]. destruct (Nat.eqb_spec p N); [lia|]. destruct (Nat.eqb_spec (S p) 0); [lia|]. destruct (Nat.eqb_spec (S p) N); [reflexivity|lia].
  - split; [|apply IH; lia]. split; [reflexivity|]. unfold hbond. destruct (Nat.eqb_spec p 0); [lia|]. destruct (Nat.eqb_spec p N); [lia|]. destruct (Nat.eqb_spec (S p) 0); [lia|]. destruct (Nat.eqb_spec (S p) N); [lia|reflexivity].
Qed.
Theorem heisenberg_chain n : (2 <= n)%nat -> chain_op n (fun _ => 2%nat) (fun _ => 2%nat) (hbond n) (heisenberg half n J Jz h).
Proof.
  intros Hn. destruct n as [|[|n]]; try lia. unfold heisenberg. cbn [Nat.sub]. rewrite Nat.sub_0_r. split; [|split; [|split]].
  - cbn [length]. rewrite app_length, repeat_length. cbn [length]. lia.
  - cbn [fits_op]. split.
    + split; [reflexivity|]. unfold hbond. cbn [Nat.eqb]. reflexivity.
    + apply (rest_fits n 1 (S (S n))); lia.
  - reflexivity.
  - unfold hbond. rewrite Nat.eqb_refl. reflexivity.
Qed.

(** ** Ferromagnetic states *)
Lemma fm_fits n p : fits (fun _ => 2%nat) (fun _ => 1%nat) p (times n [up_ (K := K)]).
Proof. revert p. induction n as [|n IH]; intros p; cbn [times app fits]; auto. split; auto. split; reflexivity. Qed.
Lemma afm_fits n p : fits (fun _ => 2%nat) (fun _ => 1%nat) p (times n [up_ (K := K); down_]).
Proof. revert p. induction n as [|n IH]; intros p; cbn [times app fits]; auto. repeat split; auto. Qed.
Lemma times_length {X} n (l : list X) : length (times n l) = (n * length l)%nat.
Proof. induction n as [|n IH]; cbn [times]; auto. rewrite app_length, IH. cbn. lia. Qed.
Theorem fm_chain n : chain n (fun _ => 2%nat) (fun _ => 1%nat) (fm_state (K := K) n false).
Proof. split; [unfold fm_state; rewrite times_length; cbn; lia|]. split; [apply fm_fits|]. auto. Qed.
Theorem afm_chain n : chain (2 * Nat.div n 2) (fun _ => 2%nat) (fun _ => 1%nat) (fm_state (K := K) n true).
Proof. split; [unfold fm_state; rewrite times_length; cbn [length]; lia|]. split; [apply afm_fits|]. auto. Qed.

Lemma prodL_cons' {X} (x : X) l (f : X -> K) : prodL (x :: l) f = f x * prodL l f.
Proof. reflexivity. Qed.

Lemma up_get s : (s < 2)%nat -> get (up_ (K := K)) [s; O; O] = if (s =? 0)%nat then 1 else 0.
Proof. intros. two s; reflexivity. Qed.
Lemma down_get s : (s < 2)%nat -> get (down_ (K := K)) [s; O; O] = if (s =? 1)%nat then 1 else 0.
Proof. intros. two s; reflexivity. Qed.

(** Amplitudes: one configuration with amplitude 1. *)
Definition one_if (b : bool) : K := if b then 1 else 0.
Lemma amp_up s ss (m : list (arr K)) : (s < 2)%nat -> amp (up_ :: m) (s :: ss) O O = one_if (s =? 0)%nat * amp m ss O O.
Proof. intros Hs. cbn [amp up_ shape nth]. rewrite sumn_S_l, sumn_0. fold (up_ (K := K)). rewrite up_get by auto. unfold one_if. ring. Qed.
Lemma amp_down s ss (m : list (arr K)) : (s < 2)%nat -> amp (down_ :: m) (s :: ss) O O = one_if (s =? 1)%nat * amp m ss O O.
Proof. intros Hs. cbn [amp down_ shape nth]. rewrite sumn_S_l, sumn_0. fold (down_ (K := K)). rewrite down_get by auto. unfold one_if. ring. Qed.
Lemma one_if_and a b : one_if a * one_if b = one_if (a && b).
Proof. destruct a, b; cbn; ring. Qed.

Theorem fm_dense n ss : length ss = n -> below ss ->
  dense (fm_state (K := K) n false) ss = one_if (if list_eq_dec Nat.eq_dec ss (repeat O n) then true else false).
Proof.
  intros L B. unfold dense, fm_state. revert ss L B. induction n as [|n IH]; intros ss L B; destruct ss as [|s ss]; try discriminate; cbn [times app].
  - reflexivity.
  - pose proof (Forall_inv B) as Hs. apply Forall_inv_tail in B. injection L as L. rewrite amp_up, IH, one_if_and by auto. f_equal. cbn [repeat].
    destruct (list_eq_dec Nat.eq_dec ss (repeat O n)) as [E|E]; destruct (list_eq_dec Nat.eq_dec (s :: ss) (O :: repeat O n)) as [E'|E'].
    + injection E' as E' _. subst s. reflexivity.
    + destruct (Nat.eqb_spec s 0); auto. subst. congruence.
    + injection E' as _ E'. congruence.
    + apply andb_false_r.
Qed.
Theorem afm_dense n ss : length ss = (2 * Nat.div n 2)%nat -> below ss ->
  dense (fm_state (K := K) n true) ss = one_if (if list_eq_dec Nat.eq_dec ss (times (Nat.div n 2) [0; 1]%nat) then true else false).
Proof.
  intros L B. unfold dense, fm_state. revert ss L B. generalize (Nat.div n 2). clear n. intros n. induction n as [|n IH]; intros ss L B.
  - destruct ss; try discriminate. reflexivity.
  - replace (2 * S n)%nat with (S (S (2 * n))) in L by lia. destruct ss as [|s [|t ss]]; try discriminate. cbn [times app].
    pose proof (Forall_inv B) as Hs. apply Forall_inv_tail in B. pose proof (Forall_inv B) as Ht. apply Forall_inv_tail in B. injection L as L.
    rewrite amp_up, amp_down, IH, !one_if_and by auto. f_equal.
    destruct (list_eq_dec Nat.eq_dec ss (times n [0; 1]%nat)) as [E|E]; destruct (list_eq_dec Nat.eq_dec (s :: t :: ss) (O :: 1%nat :: times n [0; 1]%nat)) as [E'|E'].
    + injection E' as E1 E2 _. subst. reflexivity.
    + destruct (Nat.eqb_spec s 0); auto. destruct (Nat.eqb_spec t 1); auto. subst. congruence.
    + injection E' as _ _ E'. congruence.
    + rewrite !andb_false_r. reflexivity.
Qed.

(** ** The energy of the ferromagnetic state *)
Lemma indices_below n ss : in_range ss (repeat 2%nat n) -> length ss = n /\ below ss.
Proof.
  intros R. split; [rewrite (in_range_len _ _ R); apply repeat_length|]. revert ss R. induction n as [|n IH]; intros ss R; cbn [repeat] in R; inversion R; subst; constructor; auto. apply IH; auto.
Qed.
Lemma phys_up n : phys (fm_state (K := K) n false) = repeat 2%nat n.
Proof. unfold fm_state, phys. induction n as [|n IH]; cbn [times app map repeat]; [reflexivity|]. rewrite IH. reflexivity. Qed.
Lemma NoDup_indices sh : NoDup (indices sh).
Proof. apply NoDup_map_inv with (f := ravel sh). rewrite map_ravel_indices. apply seq_NoDup. Qed.
Lemma sum_up n (f : list nat -> K) : sumL (indices (repeat 2%nat n)) (fun ss => dense (fm_state n false) ss * f ss) = f (repeat O n).
Proof.
  assert (I : in_range (repeat O n) (repeat 2%nat n)) by (induction n; constructor; auto).
  rewrite (sumL_single K _ (repeat O n)); [|apply NoDup_indices|apply in_indices; exact I|].
  - destruct (indices_below n _ I) as (L & B). rewrite fm_dense by auto. destruct (list_eq_dec Nat.eq_dec (repeat O n) (repeat O n)); [unfold one_if; ring|contradiction].
  - intros ss Hss Ne. apply in_indices in Hss. destruct (indices_below n ss Hss) as (L & B). rewrite fm_dense by auto.
    destruct (list_eq_dec Nat.eq_dec ss (repeat O n)); [contradiction|]. unfold one_if. ring.
Qed.
Lemma nth_rep x n : nth x (repeat O n) O = O.
Proof. revert x. induction n; intros [|x]; cbn; auto. Qed.
Lemma prodL_one (l : list nat) (f : nat -> K) : (forall x, In x l -> f x = 1) -> prodL l f = 1.
Proof. induction l as [|x l IH]; intros H0; [reflexivity|]. rewrite prodL_cons', H0, IH by (intros; try apply H0; cbn; auto). ring. Qed.
Lemma site_up n x (o : nat -> nat -> K) : (x < n)%nat -> at_site n x o (repeat O n) (repeat O n) = o O O.
Proof.
  revert x. induction n as [|n IH]; intros x Hx; [lia|]. cbn [repeat]. destruct x as [|x].
  - rewrite at_site_0. replace (ids n (repeat O n) (repeat O n)) with (1 : K); [ring|]. symmetry. apply prodL_one. intros y _. rewrite nth_rep. reflexivity.
  - rewrite at_site_S, IH by lia. cbn. ring.
Qed.
Lemma pair_up n x (o o' : nat -> nat -> K) : (S x < n)%nat -> at_pair n x o o' (repeat O n) (repeat O n) = o O O * o' O O.
Proof.
  revert x. induction n as [|n IH]; intros x Hx; [lia|]. cbn [repeat]. destruct x as [|x].
  - rewrite at_pair_0, site_up by lia. reflexivity.
  - rewrite at_pair_S, IH by lia. cbn. ring.
Qed.
Theorem fm_energy n : (2 <= n)%nat ->
  mat_element (fm_state n false) (Some (heisenberg half n J Jz h)) (fm_state n false)
  = Ok (sumn (n - 1) (fun _ => Jz * half * (half * half)) - sumn n (fun _ => h * half)).
Proof.
  intros Hn. rewrite (mat_element_ok K n (fun _ => 2%nat) (fun _ => 2%nat) (fun _ => 1%nat) (hbond n) (fun _ => 1%nat)); [|apply fm_chain|apply heisenberg_chain; auto|apply fm_chain].
  f_equal. unfold dense_element. rewrite phys_up.
  transitivity (sumL (indices (repeat 2%nat n)) (fun ss => dense (fm_state n false) ss * dense_op (heisenberg half n J Jz h) ss (repeat O n))).
  - apply sumL_ext. intros ss. rewrite <- sum_up with (f := fun ts => dense_op (heisenberg half n J Jz h) ss ts). rewrite <- sumL_scal_l. apply sumL_ext. intros ts. ring.
  - rewrite sum_up. assert (I : in_range (repeat O n) (repeat 2%nat n)) by (clear; induction n; constructor; auto).
    destruct (indices_below n _ I) as (L & B). rewrite heisenberg_ok by auto. unfold spin_chain. f_equal.
    + apply sumn_ext. intros x Hx. rewrite !pair_up by lia. cbn. ring.
    + apply sumn_ext. intros x Hx. rewrite site_up by auto. reflexivity.
Qed.
End P.
