From Coq Require Import List Arith Bool Lia Permutation Ring.
From Verif Require Import Py Alg ListX NdArray_Model NdArray_Proof Contract_Model Contract_Spec.
Import ListNotations.
Local Open Scope nat_scope.

Lemma memb_seq k s n : memb k (seq s n) = ((s <=? k) && (k <? s + n))%bool.
Proof.
  unfold memb. apply Bool.eq_iff_eq_true.
  rewrite existsb_exists, andb_true_iff, Nat.leb_le, Nat.ltb_lt. split.
  - intros (x & Hx & E). apply Nat.eqb_eq in E. apply in_seq in Hx. lia.
  - intros H. exists k. split; [apply in_seq; lia|apply Nat.eqb_refl].
Qed.

Lemma filter_seq_low n r :
  filter (fun k => negb (memb k (seq n r))) (seq 0 (n + r)) = seq 0 n.
Proof.
  rewrite seq_app, filter_app.
  assert (E1 : filter (fun k => negb (memb k (seq n r))) (seq 0 n) = seq 0 n).
  { assert (G : forall m s, s + m <= n ->
       filter (fun k => negb (memb k (seq n r))) (seq s m) = seq s m).
    { induction m as [|m IH]; intros s Hs; [reflexivity|]. cbn [seq filter].
      rewrite memb_seq. replace (n <=? s) with false by (symmetry; apply Nat.leb_gt; lia).
      cbn. f_equal. apply IH. lia. }
    apply G. lia. }
  assert (E2 : filter (fun k => negb (memb k (seq n r))) (seq (0 + n) r) = []).
  { assert (G : forall m s, n <= s -> s + m <= n + r ->
       filter (fun k => negb (memb k (seq n r))) (seq s m) = []).
    { induction m as [|m IH]; intros s Hs Hm; [reflexivity|]. cbn [seq filter].
      rewrite memb_seq. replace (n <=? s) with true by (symmetry; apply Nat.leb_le; lia).
      replace (s <? n + r) with true by (symmetry; apply Nat.ltb_lt; lia).
      cbn. apply IH; lia. }
    apply G; lia. }
  rewrite E1, E2, app_nil_r. reflexivity.
Qed.

Lemma fold_insert_block p q r : forall s,
  fold_left (fun o pr => ins (fst pr) (snd pr) o) (combine (seq (p + s) r) (seq (p + q + s) r))
     (seq 0 p ++ seq (p + q) s ++ seq p q)
  = seq 0 p ++ seq (p + q) (s + r) ++ seq p q.
Proof.
  induction r as [|r IH]; intros s; cbn [seq combine fold_left].
  - rewrite Nat.add_0_r. reflexivity.
  - cbn [fst snd].
    replace (S (p + s)) with (p + S s) by lia.
    replace (S (p + q + s)) with (p + q + S s) by lia.
    replace (s + S r) with (S s + r) by lia. rewrite <- IH. f_equal.
    rewrite app_assoc.
    replace (p + s) with (length (seq 0 p ++ seq (p + q) s)) by
      (rewrite app_length, !seq_length; lia).
    rewrite ins_at. rewrite seq_S, <- !app_assoc. reflexivity.
Qed.

Lemma moveaxis_order_block p q r :
  moveaxis_order (p + q + r) (seq (p + q) r) (seq p r)
  = seq 0 p ++ seq (p + q) r ++ seq p q.
Proof.
  unfold moveaxis_order. rewrite filter_seq_low.
  pose proof (fold_insert_block p q r 0) as H.
  rewrite !Nat.add_0_r in H. cbn [seq app plus] in H. rewrite <- H. f_equal.
  rewrite seq_app. reflexivity.
Qed.

Lemma perm_block p q r :
  Permutation (seq 0 p ++ seq (p + q) r ++ seq p q) (seq 0 (p + q + r)).
Proof.
  rewrite !seq_app. cbn [plus]. rewrite <- app_assoc.
  apply Permutation_app_head, Permutation_app_comm.
Qed.

Lemma gather_block x y z :
  gather (x ++ z ++ y)
    (seq 0 (length x) ++ seq (length x + length z) (length y) ++ seq (length x) (length z))
  = x ++ y ++ z.
Proof.
  rewrite !gather_app. f_equal; [|f_equal].
  - pose proof (gather_seq [] x (z ++ y)) as H. exact H.
  - pose proof (gather_seq (x ++ z) y []) as H.
    rewrite app_length, app_nil_r, <- app_assoc in H. exact H.
  - apply gather_seq.
Qed.

Section P.
Variable K : StarRing.
Add Ring Kring : (r_theory K).
Implicit Types a b c : arr K.

Lemma firstn_app_exact {A} (l1 l2 : list A) n : n = length l1 -> firstn n (l1 ++ l2) = l1.
Proof. intros ->. rewrite firstn_app, Nat.sub_diag, firstn_all, firstn_O, app_nil_r. auto. Qed.

Lemma skipn_app_exact {A} (l1 l2 : list A) n : n = length l1 -> skipn n (l1 ++ l2) = l2.
Proof. intros ->. rewrite skipn_app, Nat.sub_diag, skipn_all. auto. Qed.

Lemma del_split {A} i (l : list A) : del i l = firstn i l ++ skipn (S i) l.
Proof. reflexivity. Qed.

(** Explicit value of [_partial_product]. *)
Definition pp_val a i b j : arr K :=
  build (firstn i (shape a) ++ del j (shape b) ++ skipn (S i) (shape a))
    (fun idx =>
       let x := firstn i idx in
       let y := firstn (ndim b - 1) (skipn i idx) in
       let z := skipn (ndim b - 1) (skipn i idx) in
       sumn (nth i (shape a) 0) (fun m => rmul (get a (x ++ m :: z)) (get b (ins j m y)))).

Lemma pp_val_contracts a i b j :
  i < ndim a -> j < ndim b -> contracts a i b j (pp_val a i b j).
Proof.
  intros Hi Hj. unfold ndim in *. split; [apply wf_build|]. split; [reflexivity|].
  intros x y z Hx Hy Hz. unfold pp_val. rewrite get_build.
  - pose proof (in_range_len _ _ Hx) as Lx. rewrite firstn_length in Lx.
    pose proof (in_range_len _ _ Hy) as Ly. rewrite length_del in Ly by auto.
    cbv zeta. rewrite firstn_app_exact, skipn_app_exact by lia.
    unfold ndim. rewrite firstn_app_exact, skipn_app_exact by lia. reflexivity.
  - apply in_range_app; auto. apply in_range_app; auto.
Qed.

Lemma contracts_unique a i b j c c' :
  contracts a i b j c -> contracts a i b j c' -> c = c'.
Proof.
  intros (W & S & G) (W' & S' & G'). apply arr_ext; auto; [congruence|].
  intros idx Hi. rewrite S in Hi.
  apply in_range_app_inv in Hi. destruct Hi as (x & yz & -> & Hx & Hyz).
  apply in_range_app_inv in Hyz. destruct Hyz as (y & z & -> & Hy & Hz).
  rewrite G, G' by auto. reflexivity.
Qed.

Lemma partial_product_arr_ok a i b j :
  i < ndim a -> j < ndim b -> nth i (shape a) 0 = nth j (shape b) 0 ->
  exists c, partial_product_arr a i b j = Ok c /\ contracts a i b j c.
Proof.
  intros Hi Hj E. unfold partial_product_arr.
  rewrite tensordot_ok by auto. cbn [bind].
  unfold ndim in *.
  set (la := length (shape a)) in *. set (lb := length (shape b)) in *.
  set (t := build _ _).
  assert (St : shape t = del i (shape a) ++ del j (shape b)) by reflexivity.
  assert (Lt : ndim t = i + (la - 1 - i) + (lb - 1)).
  { unfold ndim. rewrite St, app_length, !length_del by auto. fold la lb. lia. }
  unfold moveaxis. rewrite Lt.
  assert (Hb : forallb (fun k => k <? i + (la - 1 - i) + (lb - 1))
                 (seq (la - 1) (lb - 1) ++ seq i (lb - 1)) = true).
  { apply forallb_forall. intros k Hk. apply Nat.ltb_lt.
    apply in_app_iff in Hk. destruct Hk as [Hk|Hk]; apply in_seq in Hk; lia. }
  rewrite Hb. eexists. split; [reflexivity|].
  replace (la - 1) with (i + (la - 1 - i)) at 2 by lia.
  rewrite moveaxis_order_block.
  set (q := la - 1 - i) in *. set (r := lb - 1) in *.
  set (ord := seq 0 i ++ seq (i + q) r ++ seq i q).
  assert (Hperm : Permutation ord (seq 0 (ndim t))) by (rewrite Lt; apply perm_block).
  assert (L1 : length (firstn i (shape a)) = i) by (rewrite firstn_length; fold la; lia).
  assert (L2 : length (skipn (S i) (shape a)) = q) by (rewrite skipn_length; fold la; lia).
  assert (L3 : length (del j (shape b)) = r) by (rewrite length_del; auto).
  split; [apply wf_transpose|]. split.
  - cbn [transpose shape build]. rewrite St. unfold ord. rewrite del_split.
    pose proof (gather_block (firstn i (shape a)) (del j (shape b)) (skipn (S i) (shape a))) as G.
    rewrite L1, L2, L3 in G. rewrite <- app_assoc. exact G.
  - intros x y z Hx Hy Hz.
    pose proof (in_range_len _ _ Hx) as Lx. rewrite L1 in Lx.
    pose proof (in_range_len _ _ Hy) as Ly. rewrite L3 in Ly.
    pose proof (in_range_len _ _ Hz) as Lz. rewrite L2 in Lz.
    replace (x ++ y ++ z) with (gather (x ++ z ++ y) ord) by
      (pose proof (gather_block x y z) as G; rewrite Lx, Ly, Lz in G; exact G).
    assert (Hr : in_range (x ++ z ++ y) (shape t)).
    { rewrite St, del_split, <- app_assoc. repeat apply in_range_app; auto. }
    rewrite get_transpose; auto.
    unfold t. rewrite get_build by exact Hr.
    apply sumn_ext. intros m Hm.
    rewrite app_assoc, firstn_app_exact, skipn_app_exact by (rewrite app_length; lia).
    f_equal. f_equal. rewrite <- ins_at. f_equal. lia.
Qed.

(** Moving one axis to the end or to the front, then flattening the others. *)
Lemma move_last_flat a i :
  wf a -> i < ndim a -> nth i (shape a) 0 <> 0 ->
  exists t, bind (moveaxis a [i] [ndim a - 1]) (fun t => reshape_infer t [] [nth i (shape a) 0]) = Ok t /\
    wf t /\ shape t = [prod (del i (shape a)); nth i (shape a) 0] /\
    forall r m, in_range r (del i (shape a)) -> m < nth i (shape a) 0 ->
      get t [ravel (del i (shape a)) r; m] = get a (ins i m r).
Proof.
  intros Hw Hi Hn. rewrite moveaxis_single by (unfold ndim in *; lia). cbn [bind].
  unfold ndim in *. set (n := nth i (shape a) 0) in *.
  assert (Hl : length (del i (shape a)) = length (shape a) - 1) by (apply length_del; auto).
  assert (E : ins (length (shape a) - 1) n (del i (shape a)) = del i (shape a) ++ [n]).
  { rewrite <- Hl. apply ins_length. }
  rewrite E.
  assert (Ep : prod (del i (shape a) ++ [n]) = prod [] * prod (del i (shape a)) * prod [n]).
  { rewrite prod_app. cbn. lia. }
  erewrite reshape_infer_ok; [|apply wf_build|exact Ep|cbn; lia].
  eexists. split; [reflexivity|]. split.
  - unfold wf. cbn [data shape build]. rewrite map_length, length_indices, prod_app. reflexivity.
  - split; [reflexivity|]. intros r m Hr Hm. cbn [app].
    pose proof (in_range_len _ _ Hr) as Lr.
    transitivity (get (build (K:=K) (del i (shape a) ++ [n])
       (fun idx => get a (ins i (nth (length (shape a) - 1) idx 0) (del (length (shape a) - 1) idx))))
       (r ++ [m])).
    + apply get_reshape_data. rewrite ravel_app by auto. cbn. lia.
    + rewrite get_build.
      * rewrite <- Hl, <- Lr. rewrite app_nth2, Nat.sub_diag by lia. cbn [nth].
        rewrite del_at, app_nil_r. reflexivity.
      * apply in_range_app; auto. repeat constructor; auto.
Qed.

Lemma move_first_flat a i :
  wf a -> i < ndim a -> nth i (shape a) 0 <> 0 ->
  exists t, bind (moveaxis a [i] [0]) (fun t => reshape_infer t [nth i (shape a) 0] []) = Ok t /\
    wf t /\ shape t = [nth i (shape a) 0; prod (del i (shape a))] /\
    forall r m, in_range r (del i (shape a)) -> m < nth i (shape a) 0 ->
      get t [m; ravel (del i (shape a)) r] = get a (ins i m r).
Proof.
  intros Hw Hi Hn. rewrite moveaxis_single by (unfold ndim in *; lia). cbn [bind].
  unfold ndim in *. set (n := nth i (shape a) 0) in *. rewrite ins_0.
  assert (Ep : prod (n :: del i (shape a)) = prod [n] * prod (del i (shape a)) * prod []).
  { cbn. lia. }
  erewrite reshape_infer_ok; [|apply wf_build|exact Ep|cbn; lia].
  eexists. split; [reflexivity|]. split.
  - unfold wf. cbn [data shape build app]. rewrite map_length, length_indices. cbn [prod]. lia.
  - split; [reflexivity|]. intros r m Hr Hm. cbn [app].
    transitivity (get (build (K:=K) (n :: del i (shape a))
       (fun idx => get a (ins i (nth 0 idx 0) (del 0 idx)))) (m :: r)).
    + apply get_reshape_data. cbn. lia.
    + rewrite get_build by (constructor; auto). reflexivity.
Qed.

Lemma partial_product_reshape_ok a i b j :
  wf a -> wf b -> i < ndim a -> j < ndim b -> nth i (shape a) 0 = nth j (shape b) 0 ->
  prod (shape a) <> 0 ->
  exists c, partial_product_reshape a i b j = Ok c /\ contracts a i b j c.
Proof.
  intros Wa Wb Hi Hj E Hz.
  assert (Hp : nth i (shape a) 0 * prod (del i (shape a)) = prod (shape a)) by (apply prod_del; auto).
  assert (Hn : nth i (shape a) 0 <> 0) by (intros Q; rewrite Q in Hp; lia).
  assert (Hd : prod (del i (shape a)) <> 0) by (intros Q; rewrite Q in Hp; lia).
  unfold partial_product_reshape.
  apply Nat.ltb_lt in Hi as Hi'. apply Nat.ltb_lt in Hj as Hj'. rewrite Hi', Hj'.
  cbn [andb negb]. cbv zeta.
  destruct (move_last_flat a i) as (t1 & R1 & W1 & S1 & G1); auto.
  destruct (move_first_flat b j) as (t2 & R2 & W2 & S2 & G2); auto; [congruence|].
  destruct (moveaxis a [i] [ndim a - 1]) as [m1|]; cbn [bind] in *; [|discriminate].
  rewrite R1. cbn [bind].
  destruct (moveaxis b [j] [0]) as [m2|]; cbn [bind] in *; [|discriminate].
  rewrite R2. cbn [bind].
  rewrite <- E in S2. rewrite (matmul_ok K t1 t2 _ _ _ S1 S2). cbn [bind].
  set (P := prod (del i (shape a))) in *. set (Q := prod (del j (shape b))) in *.
  set (mm := build [P; Q] _).
  erewrite (reshape_infer_ok K mm (del i (shape a)) [] Q); [|apply wf_build|cbn; fold P; lia|cbn; fold P; lia].
  cbn [bind].
  set (m3 := mkArr (del i (shape a) ++ [Q]) (data mm)).
  assert (Hl : length (del i (shape a)) = length (shape a) - 1) by (apply length_del; auto).
  unfold ndim in *.
  rewrite moveaxis_single; [|unfold ndim; cbn; rewrite app_length; cbn; lia
                            |unfold ndim; cbn; rewrite app_length; cbn; lia].
  cbn [bind]. cbn [shape m3].
  rewrite (app_nth2 (del i (shape a)) [Q]), Nat.sub_diag by lia. cbn [nth].
  rewrite del_at, app_nil_r.
  set (m4 := build (ins i Q (del i (shape a))) _).
  assert (E2 : firstn i (del i (shape a)) = firstn i (shape a)).
  { rewrite del_split. apply firstn_app_exact. rewrite firstn_length. lia. }
  assert (E3 : skipn i (del i (shape a)) = skipn (S i) (shape a)).
  { rewrite del_split. apply skipn_app_exact. rewrite firstn_length. lia. }
  assert (E1 : ins i Q (del i (shape a)) = firstn i (shape a) ++ Q :: skipn (S i) (shape a)).
  { unfold ins. rewrite E2, E3. reflexivity. }
  rewrite E2, E3.
  rewrite reshape_ok; [|apply wf_build|].
  2:{ cbn [shape m4 build]. rewrite E1, !prod_app. cbn [prod]. fold Q. lia. }
  eexists. split; [reflexivity|]. split; [|split; [reflexivity|]].
  - unfold wf. cbn [data shape m4 build]. rewrite map_length, length_indices, E1, !prod_app.
    cbn [prod]. fold Q. lia.
  - intros x y z Hx Hy Hz'.
    pose proof (in_range_len _ _ Hx) as Lx. rewrite firstn_length in Lx.
    transitivity (get m4 (x ++ ravel (del j (shape b)) y :: z)).
    { apply get_reshape_data. cbn [shape m4 build]. rewrite E1.
      rewrite !ravel_app by auto. cbn [ravel prod].
      rewrite prod_app. fold Q. lia. }
    assert (Hy' : ravel (del j (shape b)) y < Q) by (apply ravel_lt; auto).
    unfold m4. rewrite get_build.
    2:{ rewrite E1. apply in_range_app; auto. constructor; auto. }
    assert (Li : i = length x) by lia.
    assert (X1 : forall q : nat, nth i (x ++ q :: z) 0 = q).
    { intros q. rewrite Li, app_nth2, Nat.sub_diag by lia. reflexivity. }
    assert (X2 : forall q : nat, del i (x ++ q :: z) = x ++ z).
    { intros q. rewrite Li. apply del_at. }
    rewrite X1, X2.
    assert (Hxz : in_range (x ++ z) (del i (shape a))) by (apply in_range_app; auto).
    rewrite <- (in_range_len _ _ Hxz), ins_length.
    transitivity (get mm [ravel (del i (shape a)) (x ++ z); ravel (del j (shape b)) y]).
    { apply get_reshape_data. cbn [shape mm build].
      rewrite ravel_app by auto. cbn. lia. }
    assert (Hxz' : ravel (del i (shape a)) (x ++ z) < P) by (apply ravel_lt; auto).
    unfold mm. rewrite get_build by (apply in_range2; auto). cbn [nth].
    apply sumn_ext. intros k Hk. rewrite G1, G2 by (auto; lia).
    f_equal. f_equal. rewrite <- (ins_at k x z). f_equal. lia.
Qed.

Lemma partial_trace_ok a i b j :
  wf a -> wf b -> i < ndim a -> j < ndim b ->
  del i (shape a) = del j (shape b) ->
  nth i (shape a) 0 <> 0 -> nth j (shape b) 0 <> 0 ->
  exists c, partial_trace a (Some i) b (Some j) = Ok c /\ traces a i b j c.
Proof.
  intros Wa Wb Hi Hj E Hn Hm. unfold partial_trace.
  apply Nat.ltb_lt in Hi as Hi'. apply Nat.ltb_lt in Hj as Hj'. rewrite Hi', Hj'.
  cbn [andb negb]. cbv zeta.
  destruct (move_first_flat a i) as (t1 & R1 & W1 & S1 & G1); auto.
  destruct (move_last_flat b j) as (t2 & R2 & W2 & S2 & G2); auto.
  destruct (moveaxis a [i] [0]) as [m1|]; cbn [bind] in *; [|discriminate].
  rewrite R1. cbn [bind].
  destruct (moveaxis b [j] [ndim b - 1]) as [m2|]; cbn [bind] in *; [|discriminate].
  rewrite R2. cbn [bind]. rewrite <- E in S2.
  rewrite (matmul_ok K t1 t2 _ _ _ S1 S2).
  eexists. split; [reflexivity|]. split; [apply wf_build|]. split; [reflexivity|].
  intros n m Hn' Hm'. rewrite get_build by (apply in_range2; auto). cbn [nth].
  rewrite sumn_ravel_gen. apply sum_indices_ext. intros r Hr.
  rewrite G1 by auto. rewrite E in Hr |- *. rewrite G2 by auto. reflexivity.
Qed.

Lemma traces_unique a i b j c c' : traces a i b j c -> traces a i b j c' -> c = c'.
Proof.
  intros (W & S & G) (W' & S' & G'). apply arr_ext; auto; [congruence|].
  intros idx Hi. rewrite S in Hi. apply in_range2_inv in Hi.
  destruct Hi as (n & m & -> & Hn & Hm). rewrite G, G' by auto. reflexivity.
Qed.

Lemma partial_trace_all_ok a b :
  wf a -> wf b -> shape a = shape b ->
  exists c, partial_trace a None b None = Ok c /\ traces_all a b c.
Proof.
  intros Wa Wb E. unfold partial_trace.
  rewrite (reshape_infer_ok K a [] [] (prod (shape a))) by (cbn; auto; lia).
  rewrite (reshape_infer_ok K b [] [] (prod (shape a))) by (cbn; auto; rewrite <- E; lia).
  cbn [bind app]. unfold dot1. cbn [shape]. rewrite Nat.eqb_refl.
  eexists. split; [reflexivity|]. split; [reflexivity|]. split; [reflexivity|].
  unfold get at 1. cbn [shape data ravel nth].
  rewrite sumn_ravel_gen. apply sum_indices_ext. intros idx Hi.
  unfold get. cbn [shape data ravel prod]. rewrite <- E, Nat.mul_1_r, Nat.add_0_r. reflexivity.
Qed.

Lemma partial_trace_mixed a b i j :
  partial_trace a (Some i) b None = Raise TypeError /\
  partial_trace a None b (Some j) = Raise TypeError.
Proof. split; reflexivity. Qed.

Lemma partial_product_arr_err a i b j :
  (i < ndim a /\ j < ndim b /\ nth i (shape a) 0 = nth j (shape b) 0) \/
  partial_product_arr a i b j = Raise ValueError.
Proof.
  destruct (i <? ndim a) eqn:Ei; [destruct (j <? ndim b) eqn:Ej;
    [destruct (nth i (shape a) 0 =? nth j (shape b) 0) eqn:E|]|].
  - left. apply Nat.ltb_lt in Ei, Ej. apply Nat.eqb_eq in E. auto.
  - right. unfold partial_product_arr, tensordot. rewrite Ei, Ej, E. reflexivity.
  - right. unfold partial_product_arr, tensordot. rewrite Ei, Ej. reflexivity.
  - right. unfold partial_product_arr, tensordot. rewrite Ei. reflexivity.
Qed.

End P.
