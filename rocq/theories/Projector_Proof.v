From Coq Require Import List Arith Bool Lia Permutation Ring.
From Verif Require Import Py Alg ListX NdArray_Model NdArray_Proof
  Contract_Model Contract_Spec Contract_Proof.
Import ListNotations.
Local Open Scope nat_scope.

Section P.
Variable K : StarRing.
Add Ring Kring : (r_theory K).
Implicit Types a : arr K.

Lemma shape_mat_T a n m : shape a = [n; m] -> shape (mat_T a) = [m; n].
Proof. intros H. unfold mat_T, transpose. cbn. rewrite H. reflexivity. Qed.

Lemma get_mat_T a n m i j :
  shape a = [n; m] -> i < n -> j < m -> get (mat_T a) [j; i] = get a [i; j].
Proof.
  intros H Hi Hj. unfold mat_T.
  change [j; i] with (gather [i; j] [1; 0]).
  apply get_transpose.
  - unfold ndim. rewrite H. cbn. apply perm_swap.
  - rewrite H. apply in_range2; auto.
Qed.

Lemma projector_ok a axis :
  wf a -> axis < ndim a -> nth axis (shape a) 0 <> 0 ->
  exists p, projector a axis = Ok p /\ wf p /\
    shape p = del axis (shape a) ++ del axis (shape a) /\
    forall x y, in_range x (del axis (shape a)) -> in_range y (del axis (shape a)) ->
      get p (x ++ y) = sumn (nth axis (shape a) 0)
         (fun i => rmul (get a (ins axis i x)) (rconj (get a (ins axis i y)))).
Proof.
  intros Wa Hi Hn. unfold projector. apply Nat.ltb_lt in Hi as Hi'. rewrite Hi'. cbn [negb].
  cbv zeta.
  destruct (move_last_flat K a axis) as (t & R & W & S & G); auto.
  destruct (moveaxis a [axis] [ndim a - 1]) as [m|]; cbn [bind] in *; [|discriminate].
  rewrite R. cbn [bind].
  set (sh := del axis (shape a)) in *. set (n := nth axis (shape a) 0) in *.
  assert (ST : shape (arr_conj (mat_T t)) = [n; prod sh]).
  { cbn [arr_conj shape]. apply shape_mat_T; auto. }
  rewrite (matmul_ok K t _ _ _ _ S ST). cbn [bind].
  rewrite reshape_ok; [|apply wf_build|cbn [shape build]; rewrite prod_app; cbn [prod]; lia].
  eexists; split; [reflexivity|]. split; [|split; [reflexivity|]].
  - unfold wf. cbn [data shape build]. rewrite map_length, length_indices, prod_app.
    cbn [prod]. lia.
  - intros x y Hx Hy.
    transitivity (get (build (K:=K) [prod sh; prod sh] (fun idx => sumn n (fun k =>
       rmul (get t [nth 0 idx 0; k]) (get (arr_conj (mat_T t)) [k; nth 1 idx 0]))))
       [ravel sh x; ravel sh y]).
    { apply get_reshape_data. rewrite ravel_app by auto. cbn. lia. }
    pose proof (ravel_lt _ _ Hx) as Lx. pose proof (ravel_lt _ _ Hy) as Ly.
    rewrite get_build by (apply in_range2; auto). cbn [nth].
    apply sumn_ext. intros i Hi2. rewrite get_conj.
    rewrite (get_mat_T t _ _ _ _ S) by auto. rewrite !G by auto. reflexivity.
Qed.

Lemma projector_idem a axis p :
  wf a -> axis < ndim a -> nth axis (shape a) 0 <> 0 -> isometric a axis ->
  projector a axis = Ok p ->
  forall x y, in_range x (del axis (shape a)) -> in_range y (del axis (shape a)) ->
    sumL (indices (del axis (shape a))) (fun z => rmul (get p (x ++ z)) (get p (z ++ y)))
    = get p (x ++ y).
Proof.
  intros Wa Hi Hn Iso E x y Hx Hy.
  destruct (projector_ok a axis) as (p' & E' & W & S & G); auto.
  assert (p' = p) by congruence. subst p'.
  set (sh := del axis (shape a)) in *. set (n := nth axis (shape a) 0) in *.
  transitivity (sumL (indices sh) (fun z => sumn n (fun i => sumn n (fun i' =>
     rmul (rmul (get a (ins axis i x)) (rconj (get a (ins axis i' y))))
          (rmul (rconj (get a (ins axis i z))) (get a (ins axis i' z))))))).
  { apply sum_indices_ext. intros z Hz. rewrite !G by auto.
    rewrite <- sumn_scal_r. apply sumn_ext. intros i _.
    rewrite <- sumn_scal_l. apply sumn_ext. intros i' _. ring. }
  transitivity (sumn n (fun i => sumn n (fun i' =>
     rmul (rmul (get a (ins axis i x)) (rconj (get a (ins axis i' y)))) (delta i i')))).
  { unfold sumn. rewrite sumL_swap. apply sumn_ext. intros i Hi'.
    rewrite sumL_swap. apply sumn_ext. intros i' Hi2.
    rewrite sumL_scal_l. rewrite Iso by auto. reflexivity. }
  rewrite G by auto. apply sumn_ext. intros i Hi'.
  rewrite (sumn_single K n i); auto.
  - unfold delta. rewrite Nat.eqb_refl. ring.
  - intros j _ Hne. unfold delta. rewrite (proj2 (Nat.eqb_neq i j)) by auto. ring.
Qed.

Lemma projector_herm a axis p :
  wf a -> axis < ndim a -> nth axis (shape a) 0 <> 0 ->
  projector a axis = Ok p ->
  forall x y, in_range x (del axis (shape a)) -> in_range y (del axis (shape a)) ->
    get p (y ++ x) = rconj (get p (x ++ y)).
Proof.
  intros Wa Hi Hn E x y Hx Hy.
  destruct (projector_ok a axis) as (p' & E' & W & S & G); auto.
  assert (p' = p) by congruence. subst p'.
  rewrite !G by auto. rewrite rconj_sumn. apply sumn_ext. intros i _.
  rewrite rconj_mul, rconj_invol. ring.
Qed.

End P.
