(** Consequences of the hierarchy equations. *)
From Coq Require Import List Arith Bool Lia Ring.
From Verif Require Import Py Alg ListX NdArray_Model NdArray_Proof Contract_Model Contract_Spec Contract_Proof Mode_Proof
  Heom_Model Heom_Spec Heom_Proof.
Import ListNotations.
Local Open Scope nat_scope.

Lemma occ_tier0 m k : occ (tier0 m) k = 0.
Proof. unfold occ, tier0. revert k. induction m as [|m IH]; intros [|k]; cbn; auto. Qed.
Lemma tier0_in dims : Forall (fun x => 0 < x) dims -> in_range (tier0 (length dims)) dims.
Proof. unfold tier0. induction 1; cbn; constructor; auto. Qed.
Lemma tier0_iff n : n = tier0 (length n) <-> forall k, k < length n -> occ n k = 0.
Proof.
  split.
  - intros -> k _. apply occ_tier0.
  - intros H. unfold tier0. apply (nth_ext_d 0); [rewrite repeat_length; auto|]. intros k Hk. change (occ n k = occ (tier0 (length n)) k). rewrite H by auto. symmetry. apply occ_tier0.
Qed.
Lemma occ_more k n : k < length n -> occ (more k n) k = S (occ n k).
Proof. intros. unfold occ at 1, more. apply nth_upd_eq; auto. Qed.
Lemma occ_less k n : k < length n -> occ (less k n) k = pred (occ n k).
Proof. intros. unfold occ at 1, less. apply nth_upd_eq; auto. Qed.
Lemma occ_more_ne k k' n : k <> k' -> occ (more k n) k' = occ n k'.
Proof. intros. unfold occ at 1, more. apply nth_upd_neq; auto. Qed.
Lemma occ_less_ne k k' n : k <> k' -> occ (less k n) k' = occ n k'.
Proof. intros. unfold occ at 1, less. apply nth_upd_neq; auto. Qed.
Lemma len_more k n : length (more k n) = length n.
Proof. apply length_upd. Qed.
Lemma len_less k n : length (less k n) = length n.
Proof. apply length_upd. Qed.
Lemma more_less k n : k < length n -> 0 < occ n k -> more k (less k n) = n.
Proof.
  intros H H0. unfold more. rewrite occ_less by auto. unfold less. rewrite upd_upd. replace (S (pred (occ n k))) with (occ n k) by lia. unfold occ. apply upd_same.
Qed.

Section T.
Variable K : StarRing.
Add Ring Kr : (r_theory K).
Local Open Scope star_scope.

Lemma lmul_ext d (A A' f f' : nat -> nat -> K) i j : (forall a, (a < d)%nat -> A i a = A' i a) -> (forall a, (a < d)%nat -> f a j = f' a j) -> lmul d A f i j = lmul d A' f' i j.
Proof. intros H H'. apply sumn_ext. intros a Ha. rewrite H, H' by auto. reflexivity. Qed.
Lemma rmult_ext d (A A' f f' : nat -> nat -> K) i j : (forall a, (a < d)%nat -> A a j = A' a j) -> (forall a, (a < d)%nat -> f i a = f' i a) -> rmult d f A i j = rmult d f' A' i j.
Proof. intros H H'. apply sumn_ext. intros a Ha. rewrite H, H' by auto. reflexivity. Qed.
Lemma lmul_scal d (A f : nat -> nat -> K) s i j : lmul d A (fun x y => s * f x y) i j = s * lmul d A f i j.
Proof. unfold lmul. rewrite <- sumn_scal_l. apply sumn_ext. intros. ring. Qed.
Lemma rmult_scal d (A f : nat -> nat -> K) s i j : rmult d (fun x y => s * f x y) A i j = s * rmult d f A i j.
Proof. unfold rmult. rewrite <- sumn_scal_l. apply sumn_ext. intros. ring. Qed.
Lemma lmul_zero d (A f : nat -> nat -> K) i j : (forall a, (a < d)%nat -> f a j = 0) -> lmul d A f i j = 0.
Proof. intros H. apply sumn_zero. intros a Ha. rewrite H by auto. ring. Qed.
Lemma rmult_zero d (A f : nat -> nat -> K) i j : (forall a, (a < d)%nat -> f i a = 0) -> rmult d f A i j = 0.
Proof. intros H. apply sumn_zero. intros a Ha. rewrite H by auto. ring. Qed.

Lemma trace_comm d (A f : nat -> nat -> K) : sumn d (fun i => lmul d A f i i) = sumn d (fun i => rmult d f A i i).
Proof.
  unfold lmul, rmult. rewrite sumn_swap. apply sumn_ext. intros i _. apply sumn_ext. intros a _. ring.
Qed.
Lemma trace_comm_zero d (A f : nat -> nat -> K) (s : K) : sumn d (fun i => s * (lmul d A f i i - rmult d f A i i)) = 0.
Proof.
  rewrite sumn_scal_l. rewrite (sumn_ext K d _ (fun i => lmul d A f i i + - (1) * rmult d f A i i)) by (intros; ring).
  rewrite sumn_add, sumn_scal_l, trace_comm. ring.
Qed.

Lemma plain_trace im ihbar d m (H X : nat -> nat -> K) gamma c c' rho :
  trace d (plain_rhs im ihbar d m H H X X gamma c c' rho (tier0 m)) = 0.
Proof.
  unfold trace, plain_rhs.
  rewrite (sumn_ext K d _ (fun i => - im * (lmul d H (rho (tier0 m)) i i - rmult d (rho (tier0 m)) H i i) +
    sumn m (fun k => - (im * ihbar) * (lmul d X (rho (more k (tier0 m))) i i - rmult d (rho (more k (tier0 m))) X i i)))).
  - rewrite sumn_add, trace_comm_zero, sumn_swap. rewrite sumn_zero; [ring|]. intros k _. apply trace_comm_zero.
  - intros i _. rewrite (sumn_zero K m (fun k => num (occ (tier0 m) k) * gamma k)) by (intros; rewrite occ_tier0; cbn [num]; ring).
    rewrite (sumn_zero K m (fun k => - (im * ihbar) * num (occ (tier0 m) k) * _)) by (intros; rewrite occ_tier0; cbn [num]; ring). ring.
Qed.
Lemma scaled_trace im sq f f' d m (H X : nat -> nat -> K) gamma c c' rho : sq O = 0 ->
  trace d (scaled_rhs im sq f f' d m H H X X gamma c c' rho (tier0 m)) = 0.
Proof.
  intros S0. unfold trace, scaled_rhs.
  rewrite (sumn_ext K d _ (fun i => - im * (lmul d H (rho (tier0 m)) i i - rmult d (rho (tier0 m)) H i i) +
    sumn m (fun k => - im * (f * sq (S (occ (tier0 m) k))) * (lmul d X (rho (more k (tier0 m))) i i - rmult d (rho (more k (tier0 m))) X i i)))).
  - rewrite sumn_add, trace_comm_zero, sumn_swap. rewrite sumn_zero; [ring|]. intros k _. apply trace_comm_zero.
  - intros i _. rewrite (sumn_zero K m (fun k => num (occ (tier0 m) k) * gamma k)) by (intros; rewrite occ_tier0; cbn [num]; ring).
    rewrite (sumn_zero K m (fun k => - im * (f' * sq (occ (tier0 m) k)) * _)) by (intros; rewrite occ_tier0, S0; ring). ring.
Qed.

Lemma scaled_sym im sq f f' d m (Hl H Xl X : nat -> nat -> K) gamma c c' rho n i j : (i < d)%nat ->
  (forall a b, (a < d)%nat -> (b < d)%nat -> Hl a b = H a b) -> (forall a b, (a < d)%nat -> (b < d)%nat -> Xl a b = X a b) ->
  scaled_rhs im sq f f' d m Hl H Xl X gamma c c' rho n i j = scaled_rhs im sq f f' d m H H X X gamma c c' rho n i j.
Proof.
  intros Hi EH EX. unfold scaled_rhs. f_equal; [f_equal; [f_equal|]|].
  - rewrite (lmul_ext d Hl H (rho n) (rho n)) by auto. reflexivity.
  - apply sumn_ext. intros k _. rewrite (lmul_ext d Xl X (rho (more k n)) (rho (more k n))) by auto. reflexivity.
  - apply sumn_ext. intros k _. rewrite (lmul_ext d Xl X (rho (less k n)) (rho (less k n))) by auto. reflexivity.
Qed.

(** ** eom.py *)
Lemma shifted_tier0 im ihbar sq d m (H Xl X : nat -> nat -> K) gamma c c' rho i j : sq O = 0 ->
  shifted_rhs im ihbar sq d m H H Xl X gamma c c' rho (tier0 m) i j = free_rhs im d H (rho (tier0 m)) i j.
Proof.
  intros S0. unfold shifted_rhs, free_rhs.
  rewrite (sumn_zero K m (fun k => num (occ (tier0 m) k) * gamma k)) by (intros; rewrite occ_tier0; cbn [num]; ring).
  rewrite (sumn_zero K m (fun k => - (im * ihbar) * sq (pred (occ (tier0 m) k)) * _)) by (intros; rewrite occ_tier0; cbn [pred]; rewrite S0; ring).
  rewrite (sumn_zero K m (fun k => - (im * ihbar) * sq (occ (tier0 m) k) * _)) by (intros; rewrite occ_tier0, S0; ring). ring.
Qed.
Lemma shifted_stays im ihbar sq d m (H Xl X : nat -> nat -> K) gamma c c' rho n i j : sq O = 0 -> length n = m -> (i < d)%nat -> (j < d)%nat ->
  (forall n' i j, length n' = m -> n' <> tier0 m -> (i < d)%nat -> (j < d)%nat -> rho n' i j = 0) -> n <> tier0 m ->
  shifted_rhs im ihbar sq d m H H Xl X gamma c c' rho n i j = 0.
Proof.
  intros S0 Ln Hi Hj Z N. unfold shifted_rhs.
  rewrite (lmul_zero d H (rho n)), (rmult_zero d H (rho n)) by (intros; apply Z; auto). rewrite Z by auto.
  rewrite (sumn_zero K m (fun k => - (im * ihbar) * sq (pred (occ n k)) * _)).
  2: { intros k Hk. destruct (list_eq_dec Nat.eq_dec (less k n) (tier0 m)) as [E|E].
       - rewrite <- (occ_less k n) by lia. rewrite E, occ_tier0, S0. ring.
       - rewrite lmul_zero, rmult_zero by (intros; apply Z; auto; rewrite len_less; auto). ring. }
  rewrite (sumn_zero K m (fun k => - (im * ihbar) * sq (occ n k) * _)).
  2: { intros k Hk. assert (E : more k n <> tier0 m). { intros E. pose proof (occ_more k n ltac:(lia)) as F. rewrite E, occ_tier0 in F. discriminate. }
       rewrite lmul_zero, rmult_zero by (intros; apply Z; auto; rewrite len_more; auto). ring. }
  ring.
Qed.

(** ** Similarity *)
Lemma factor_more (f : K) sq m k n : (k < m)%nat -> (k < length n)%nat -> factor f sq m (more k n) = factor f sq m n * (f * sq (S (occ n k))).
Proof.
  intros Hk Ln. unfold factor. replace m with (k + S (m - S k))%nat by lia. rewrite seq_app, !prodL_app. cbn [seq Nat.add]. rewrite !prodL_cons.
  rewrite (prodL_ext_in K (seq 0 k) (fun x => pow f (occ (more k n) x) * sqfact sq (occ (more k n) x)) (fun x => pow f (occ n x) * sqfact sq (occ n x))).
  2: { intros x Hx. apply in_seq in Hx. rewrite occ_more_ne by lia. reflexivity. }
  rewrite (prodL_ext_in K (seq (S k) (m - S k)) (fun x => pow f (occ (more k n) x) * sqfact sq (occ (more k n) x)) (fun x => pow f (occ n x) * sqfact sq (occ n x))).
  2: { intros x Hx. apply in_seq in Hx. rewrite occ_more_ne by lia. reflexivity. }
  rewrite occ_more by auto. cbn [pow sqfact]. ring.
Qed.

Lemma similar (im : K) sq f f' d m (H X : nat -> nat -> K) gamma c c' rho n i j : f * f' = 1 -> sq O = 0 -> length n = m ->
  (forall k, (k < m)%nat -> sq (occ n k) * sq (occ n k) = num (occ n k)) ->
  plain_rhs im 1 d m H H X X gamma c c' (fun n i j => factor f sq m n * rho n i j) n i j
  = factor f sq m n * scaled_rhs im sq f f' d m H H X X gamma c c' rho n i j.
Proof.
  intros Ef S0 Ln Hs. unfold plain_rhs, scaled_rhs. set (s := factor f sq m). rewrite !lmul_scal, !rmult_scal.
  rewrite (sumn_ext K m (fun k => - (im * 1) * (lmul d X _ i j - rmult d _ X i j)) (fun k => s n * (- im * (f * sq (S (occ n k))) * (lmul d X (rho (more k n)) i j - rmult d (rho (more k n)) X i j)))).
  2: { intros k Hk. rewrite lmul_scal, rmult_scal. unfold s. rewrite factor_more by lia. ring. }
  rewrite (sumn_ext K m (fun k => - (im * 1) * num (occ n k) * _) (fun k => s n * (- im * (f' * sq (occ n k)) * (c k * lmul d X (rho (less k n)) i j - c' k * rmult d (rho (less k n)) X i j)))).
  2: { intros k Hk. rewrite lmul_scal, rmult_scal.
       set (L := lmul d X (rho (less k n)) i j). set (R := rmult d (rho (less k n)) X i j).
       destruct (Nat.eq_dec (occ n k) 0) as [E0|P0].
       - rewrite E0. cbn [num]. rewrite S0. ring.
       - rewrite <- Hs by auto. assert (E : s n = s (less k n) * (f * sq (occ n k))).
         { rewrite <- (more_less k n) at 1 by lia. unfold s. rewrite factor_more by (rewrite ?len_less; lia). rewrite occ_less by lia.
           replace (S (pred (occ n k))) with (occ n k) by lia. reflexivity. }
         rewrite E. transitivity ((f * f') * (- im * (sq (occ n k) * sq (occ n k)) * s (less k n) * (c k * L - c' k * R))); [rewrite Ef; ring|ring]. }
  rewrite !sumn_scal_l. ring.
Qed.

Lemma factor_tier0 (f : K) sq m : factor f sq m (tier0 m) = 1.
Proof.
  unfold factor. rewrite (prodL_ext_in K (seq 0 m) _ (fun _ => 1)).
  - induction (seq 0 m) as [|x l IH]; [reflexivity|]. rewrite prodL_cons, IH. ring.
  - intros k _. rewrite occ_tier0. cbn [pow sqfact]. ring.
Qed.

(** The right-hand sides depend on the values inside only. *)
Lemma plain_ext im ihbar d m (H X : nat -> nat -> K) gamma c c' rho rho' n i j : (i < d)%nat -> (j < d)%nat ->
  (forall n i j, (i < d)%nat -> (j < d)%nat -> rho n i j = rho' n i j) ->
  plain_rhs im ihbar d m H H X X gamma c c' rho n i j = plain_rhs im ihbar d m H H X X gamma c c' rho' n i j.
Proof.
  intros Hi Hj E. unfold plain_rhs. f_equal; [f_equal; [f_equal|]|].
  - rewrite (lmul_ext d H H (rho n) (rho' n)), (rmult_ext d H H (rho n) (rho' n)) by auto. reflexivity.
  - rewrite E by auto. reflexivity.
  - apply sumn_ext. intros k _. rewrite (lmul_ext d X X (rho (more k n)) (rho' (more k n))), (rmult_ext d X X (rho (more k n)) (rho' (more k n))) by auto. reflexivity.
  - apply sumn_ext. intros k _. rewrite (lmul_ext d X X (rho (less k n)) (rho' (less k n))), (rmult_ext d X X (rho (less k n)) (rho' (less k n))) by auto. reflexivity.
Qed.
Lemma free_ext im d (H : nat -> nat -> K) rho rho' i j : (i < d)%nat -> (j < d)%nat -> (forall i j, (i < d)%nat -> (j < d)%nat -> rho i j = rho' i j) ->
  free_rhs im d H rho i j = free_rhs im d H rho' i j.
Proof.
  intros Hi Hj E. unfold free_rhs. rewrite (lmul_ext d H H rho rho'), (rmult_ext d H H rho rho') by auto. reflexivity.
Qed.

Lemma scaled_coef im sq f f' d m (H X : nat -> nat -> K) gamma c c' gamma1 c1 c1' rho n i j :
  (forall k, (k < m)%nat -> gamma k = gamma1 k) -> (forall k, (k < m)%nat -> c k = c1 k) -> (forall k, (k < m)%nat -> c' k = c1' k) ->
  scaled_rhs im sq f f' d m H H X X gamma c c' rho n i j = scaled_rhs im sq f f' d m H H X X gamma1 c1 c1' rho n i j.
Proof.
  intros E1 E2 E3. unfold scaled_rhs. f_equal; [f_equal; f_equal; f_equal|].
  - apply sumn_ext. intros k Hk. rewrite E1 by auto. reflexivity.
  - apply sumn_ext. intros k Hk. rewrite E2, E3 by auto. reflexivity.
Qed.

Lemma ring_mul0 (x : K) : x * 0 = 0.
Proof. ring. Qed.
Lemma ring_opp2 (x : K) : - - x = x.
Proof. ring. Qed.
Lemma ring_mul1 (x : K) : 1 * x = x.
Proof. ring. Qed.

(** ** The initial state *)
Lemma ravel_tier0 dims : ravel dims (tier0 (length dims)) = O.
Proof. unfold tier0. induction dims as [|x dims IH]; [reflexivity|]. cbn. exact IH. Qed.

Lemma extended_ok dims d (rho : arr K) : dims <> [] -> Forall (fun x => (0 < x)%nat) dims -> wf rho -> shape rho = [d; d] ->
  exists b, gen_extended_rho dims rho = Ok b /\ wf b /\ shape b = dims ++ [d; d] /\
    forall n i j, in_range n dims -> (i < d)%nat -> (j < d)%nat ->
      get b (n ++ [i; j]) = if list_eq_dec Nat.eq_dec n (tier0 (length dims)) then get rho [i; j] else 0.
Proof.
  intros Hne Hp W E. unfold gen_extended_rho. rewrite E, Nat.eqb_refl.
  destruct (Nat.eqb_spec (length dims) 0) as [L0|_]; [destruct dims; [congruence|discriminate]|].
  destruct (Nat.eqb_spec (prod dims) 0) as [P0|P0].
  { exfalso. clear -Hp P0. induction Hp; cbn in P0; [discriminate|]. apply Nat.eq_mul_0 in P0. lia. }
  set (e := build [prod dims] (fun x => delta (nth 0 x O) O) : arr K).
  set (o := outer e rho).
  assert (So : shape o = [prod dims; d; d]) by (unfold o, outer, e; rewrite !shape_build, E; reflexivity).
  assert (Wo : wf o) by apply wf_build.
  rewrite reshape_ok; [|exact Wo|rewrite So, prod_app; cbn [prod]; lia]. eexists. split; [reflexivity|]. split; [|split; [reflexivity|]].
  { unfold wf in *. cbn [data shape]. rewrite Wo, So, prod_app. cbn [prod]. lia. }
  intros n i j Hn Hi Hj.
  assert (Lr : (ravel dims n < prod dims)%nat) by (apply ravel_lt; auto).
  rewrite (get_reshape_data K (dims ++ [d; d]) [prod dims; d; d] (data o) (n ++ [i; j]) [ravel dims n; i; j]).
  2: { rewrite ravel_app by auto. cbn [ravel prod]. lia. }
  replace (mkArr [prod dims; d; d] (data o)) with o by (rewrite <- So; symmetry; apply arr_eta).
  unfold o, outer. rewrite get_build.
  2: { unfold e. rewrite shape_build, E. cbn [app]. constructor; auto. }
  unfold ndim. change (length (shape e)) with 1%nat. cbn [firstn skipn]. unfold e. rewrite get_build by (constructor; auto; constructor). cbn [nth].
  destruct (list_eq_dec Nat.eq_dec n (tier0 (length dims))) as [->|N].
  - rewrite ravel_tier0. unfold delta. cbn [Nat.eqb]. ring.
  - rewrite delta_ne; [ring|]. intros Er. apply N. apply (ravel_inj dims _ _ Hn (tier0_in dims Hp)). rewrite ravel_tier0. exact Er.
Qed.
End T.
