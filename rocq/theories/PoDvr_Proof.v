(** Proofs about many-dimensional representations. *)
From Coq Require Import List Arith Bool Lia Permutation.
From Verif Require Import Py Alg ListX NdArray_Model NdArray_Proof Mode_Proof PoDvr_Model PoDvr_Spec.
Import ListNotations.
Local Open Scope nat_scope.
Local Open Scope py_scope.

Lemma nth_skipn_add {A} n : forall (l : list A) k d, nth k (skipn n l) d = nth (n + k) l d.
Proof. induction n as [|n IH]; intros [|x l] k d; cbn; auto. destruct k; reflexivity. Qed.
Lemma nth_firstn_lt {A} n : forall (l : list A) k d, k < n -> nth k (firstn n l) d = nth k l d.
Proof. induction n as [|n IH]; intros [|x l] [|k] d H; cbn; try lia; auto. apply IH. lia. Qed.
Lemma skipn_app_len {A} (l r : list A) : skipn (length l) (l ++ r) = r.
Proof. induction l; cbn; auto. Qed.
Lemma skipn_skipn {A} b : forall a (l : list A), skipn a (skipn b l) = skipn (a + b) l.
Proof. induction b as [|b IH]; intros a l; [now rewrite Nat.add_0_r|]. rewrite Nat.add_succ_r. destruct l as [|x l]; [destruct a; reflexivity|]. cbn. apply IH. Qed.
Lemma Forall_skipn' {A} (P : A -> Prop) n : forall l, Forall P l -> Forall P (skipn n l).
Proof. induction n as [|n IH]; intros l F; cbn; auto. destruct F; auto. Qed.
Lemma exists_last_or_nil {A} (l : list A) : l = [] \/ exists l' x, l = l' ++ [x].
Proof. destruct l as [|x l]; auto. right. destruct (@exists_last A (x :: l)) as (l' & y & E); [discriminate|]. exists l', y. exact E. Qed.
Lemma del_at {A} (pre : list A) q post : del (length pre) (pre ++ q :: post) = pre ++ post.
Proof. unfold del. induction pre as [|x pre IH]; cbn; auto. now rewrite <- IH. Qed.

(** ** Indices *)
Fixpoint bases (sizes : list nat) : list nat := match sizes with [] => [] | _ :: rest => prod rest :: bases rest end.
Lemma fold_left_map {A B C} (f : A -> B -> A) (g : C -> B) l : forall a, fold_left f (map g l) a = fold_left (fun a x => f a (g x)) l a.
Proof. induction l as [|x l IH]; intros; cbn; auto. Qed.
Lemma prods_cons x y rest : prods_of (x :: y :: rest) = (hd 1 (prods_of (y :: rest)) * y) :: prods_of (y :: rest).
Proof.
  unfold prods_of at 1. cbn [length Nat.sub seq rev]. rewrite fold_left_app. cbn [fold_left]. change (nth 1 (x :: y :: rest) 0) with y.
  assert (E : fold_left (fun prods i => hd 1 prods * nth i (x :: y :: rest) 0 :: prods) (rev (seq 2 (length rest))) [1] = prods_of (y :: rest)); [|rewrite E; reflexivity].
  rewrite <- seq_shift, <- map_rev, fold_left_map. unfold prods_of. cbn [length]. rewrite Nat.sub_succ, Nat.sub_0_r. reflexivity.
Qed.
Lemma prods_bases x sizes : prods_of (x :: sizes) = bases (x :: sizes).
Proof.
  revert x. induction sizes as [|y rest IH]; intros x; [reflexivity|]. rewrite prods_cons, IH. cbn [bases hd prod]. f_equal. apply Nat.mul_comm.
Qed.
Lemma sub_loop_ok sizes : forall N, N < prod sizes -> exists idx, sub_loop (length sizes) (bases sizes) N = Ok idx /\ in_range idx sizes /\ ravel sizes idx = N.
Proof.
  induction sizes as [|x rest IH]; intros N H.
  - exists []. cbn in *. split; [reflexivity|]. split; [constructor|lia].
  - cbn [length bases sub_loop prod] in *. assert (P : prod rest <> 0) by (intros Z; rewrite Z in H; lia). rewrite (proj2 (Nat.eqb_neq _ _) P).
    destruct (IH (N mod prod rest) (Nat.mod_upper_bound _ _ P)) as (idx & E & R & V). rewrite E. cbn [bind]. eexists. split; [reflexivity|]. split.
    + constructor; [|exact R]. apply Nat.div_lt_upper_bound; auto. lia.
    + cbn [ravel]. rewrite V. rewrite (Nat.div_mod_eq N (prod rest)) at 3. lia.
Qed.
Lemma subindex_ok sizes N : N < prod sizes -> exists idx, subindex sizes N = Ok idx /\ in_range idx sizes /\ ravel sizes idx = N.
Proof.
  intros H. unfold subindex. destruct sizes as [|x rest]; [exists []; cbn in *; split; [reflexivity|split; [constructor|lia]]|]. rewrite prods_bases. apply sub_loop_ok; auto.
Qed.
Lemma subindex_ravel sizes idx : in_range idx sizes -> subindex sizes (ravel sizes idx) = Ok idx.
Proof.
  intros R. destruct (subindex_ok sizes (ravel sizes idx) (ravel_lt _ _ R)) as (idx' & E & R' & V). rewrite E. f_equal. apply (ravel_inj sizes); auto.
Qed.
Lemma at_grid_ok {A} (grids : list (list A)) sizes idx d : map (@length A) grids = sizes -> in_range idx sizes ->
  at_grid grids idx = Ok (map (fun p => nth (snd p) (fst p) d) (combine grids idx)).
Proof.
  intros <- R. revert grids R. induction idx as [|n idx IH]; intros grids R; inversion R as [|? y ? l' Hn R' Ex Ey]; subst; [destruct grids; [reflexivity|discriminate]|].
  destruct grids as [|g grids]; [discriminate|]. cbn [map] in Ey. injection Ey as E1 E2. subst. cbn [at_grid]. rewrite (nth_error_nth' g d Hn). rewrite IH by auto. reflexivity.
Qed.

(** ** Exchange of an axis with the last *)
Definition sg (n i k : nat) : nat := if k =? n - 1 then i else if k =? i then n - 1 else k.
Definition swapL (i : nat) (l : list nat) : list nat := gather l (swap_order (length l) (length l - 1) i).
Lemma sg_lt n i k : i < n -> k < n -> sg n i k < n.
Proof. unfold sg. intros. destruct (k =? n - 1); auto. destruct (k =? i); lia. Qed.
Lemma sg_sg n i k : i < n -> k < n -> sg n i (sg n i k) = k.
Proof.
  unfold sg. intros. destruct (Nat.eqb_spec k (n - 1)); [|destruct (Nat.eqb_spec k i)]; repeat match goal with |- context [?a =? ?b] => destruct (Nat.eqb_spec a b) end; lia.
Qed.
Lemma swapL_len i l : length (swapL i l) = length l.
Proof. unfold swapL, gather, swap_order. now rewrite !map_length, seq_length. Qed.
Lemma swapL_nth i l k : k < length l -> nth k (swapL i l) 0 = nth (sg (length l) i k) l 0.
Proof.
  intros H. unfold swapL, gather, swap_order. rewrite map_map. set (h := fun x => nth _ l 0). rewrite (nth_indep _ _ (h 0)) by (rewrite map_length, seq_length; auto). rewrite map_nth, seq_nth by auto. reflexivity.
Qed.
Lemma swapL_invol i l : i < length l -> swapL i (swapL i l) = l.
Proof.
  intros H. apply (nth_ext_d 0); [now rewrite !swapL_len|]. intros k Hk. rewrite !swapL_len in Hk. rewrite swapL_nth by (rewrite swapL_len; auto). rewrite swapL_len.
  rewrite swapL_nth by (apply sg_lt; auto). rewrite sg_sg by auto. reflexivity.
Qed.
Lemma NoDup_map_on {A B} (f : A -> B) l : NoDup l -> (forall x y, In x l -> In y l -> f x = f y -> x = y) -> NoDup (map f l).
Proof.
  induction 1 as [|x l N D IH]; intros I; cbn [map]; constructor.
  - intros Hx. apply in_map_iff in Hx as (y & E & Hy). apply I in E; cbn; auto. subst. auto.
  - apply IH. intros. apply I; cbn; auto.
Qed.
Lemma swap_perm n i : i < n -> Permutation (swap_order n (n - 1) i) (seq 0 n).
Proof.
  intros H. assert (E : swap_order n (n - 1) i = map (sg n i) (seq 0 n)) by reflexivity. rewrite E. apply NoDup_Permutation.
  - apply NoDup_map_on; [apply seq_NoDup|]. intros x y Hx Hy Exy. apply in_seq in Hx, Hy. rewrite <- (sg_sg n i x), <- (sg_sg n i y) by lia. congruence.
  - apply seq_NoDup.
  - intros x. rewrite in_map_iff, in_seq. split; [intros (y & <- & Hy); apply in_seq in Hy; pose proof (sg_lt n i y); lia|].
    intros Hx. exists (sg n i x). split; [apply sg_sg; lia|]. apply in_seq. pose proof (sg_lt n i x). lia.
Qed.
Lemma swapL_range i idx sh : i < length sh -> in_range idx sh -> in_range (swapL i idx) (swapL i sh).
Proof.
  intros H R. unfold swapL. rewrite (in_range_len _ _ R). apply gather_in_range; auto. apply perm_seq_lt, swap_perm. auto.
Qed.
Lemma swapL_prod i sh : i < length sh -> prod (swapL i sh) = prod sh.
Proof.
  intros H. apply prod_perm. unfold swapL, gather. rewrite <- (map_nth_seq 0 sh) at 3. apply Permutation_map, swap_perm. auto.
Qed.
Lemma removelast_nth' (l : list nat) j x : j < length l -> nth j (removelast l ++ [x]) 0 = if j =? length l - 1 then x else nth j l 0.
Proof.
  intros H. assert (L : length (removelast l) = length l - 1) by (rewrite removelast_firstn_len, firstn_length; lia).
  destruct (Nat.eqb_spec j (length l - 1)) as [->|N].
  - rewrite app_nth2 by lia. rewrite L, Nat.sub_diag. reflexivity.
  - rewrite app_nth1 by lia. rewrite removelast_firstn_len. clear L. assert (Hj : j < pred (length l)) by lia. revert Hj. generalize (pred (length l)). intros p Hp. revert j p H N Hp. induction l as [|y l IH]; intros [|j] [|p] H N Hp; cbn in *; try lia; auto. apply IH; lia.
Qed.
Lemma removelast_len (l : list nat) x : l <> [] -> length (removelast l ++ [x]) = length l.
Proof. intros H. rewrite app_length, removelast_firstn_len, firstn_length. cbn. destruct l; [congruence|cbn; lia]. Qed.
Lemma swapL_upd i idx x : i < length idx -> swapL i (removelast (swapL i idx) ++ [x]) = upd i x idx.
Proof.
  intros H. assert (N0 : swapL i idx <> []) by (intros Z; apply (f_equal (@length nat)) in Z; rewrite swapL_len in Z; cbn in Z; lia).
  assert (L : length (removelast (swapL i idx) ++ [x]) = length idx) by (rewrite removelast_len by auto; apply swapL_len).
  apply (nth_ext_d 0); [now rewrite swapL_len, L, length_upd|]. intros k Hk. rewrite swapL_len, L in Hk. rewrite swapL_nth by lia. rewrite L.
  rewrite removelast_nth' by (rewrite swapL_len; apply sg_lt; auto). rewrite swapL_len. destruct (Nat.eq_dec k i) as [->|Ne].
  - rewrite nth_upd_eq by auto. unfold sg. destruct (Nat.eqb_spec i (length idx - 1)) as [E|E]; [rewrite <- E, Nat.eqb_refl; reflexivity|]. rewrite !Nat.eqb_refl. reflexivity.
  - rewrite nth_upd_neq by auto. destruct (Nat.eqb_spec (sg (length idx) i k) (length idx - 1)) as [E|E].
    + exfalso. unfold sg in E. destruct (Nat.eqb_spec k (length idx - 1)); [lia|]. rewrite (proj2 (Nat.eqb_neq k i)) in E by auto. lia.
    + rewrite swapL_nth by (apply sg_lt; auto). rewrite sg_sg by auto. reflexivity.
Qed.
Lemma swapL_last i idx : i < length idx -> swapL i idx = removelast (swapL i idx) ++ [nth i idx 0].
Proof. intros H. rewrite <- (swapL_invol i (removelast _ ++ _)). - rewrite swapL_upd, upd_same by auto. reflexivity. - rewrite removelast_len by (intros Z; apply (f_equal (@length nat)) in Z; rewrite swapL_len in Z; cbn in Z; lia). now rewrite swapL_len. Qed.

Section Arrays.
Context {K : StarRing}.
Lemma swap_ok (a : arr K) i : wf a -> i < length (shape a) -> exists b, swapaxes a (ndim a - 1) i = Ok b /\ wf b /\ shape b = swapL i (shape a) /\
  forall idx, in_range idx (shape a) -> get b (swapL i idx) = get a idx.
Proof.
  intros W H. unfold swapaxes, ndim. rewrite (proj2 (Nat.ltb_lt _ _)), (proj2 (Nat.ltb_lt i _)) by lia. cbn [andb]. eexists. split; [reflexivity|]. split; [apply wf_transpose|]. split; [reflexivity|].
  intros idx R. unfold swapL. rewrite (in_range_len _ _ R). apply get_transpose; auto. apply swap_perm. auto.
Qed.

(** ** The rows of a matrix *)
Lemma nth_concat {A} (rows : list (list A)) m d : Forall (fun w => length w = m) rows -> forall r i, i < m -> nth (r * m + i) (concat rows) d = nth i (nth r rows []) d.
Proof.
  induction 1 as [|w rows L F IH]; intros r i Hi; [cbn [concat]; destruct r, (_ + i), i; reflexivity|].
  cbn [concat]. destruct r as [|r]; cbn [nth Nat.mul].
  - apply app_nth1. lia.
  - rewrite app_nth2 by lia. rewrite <- IH by auto. f_equal. lia.
Qed.
Lemma row_nth (a : arr K) p q r k d : shape a = [p; q] -> k < q -> r < p -> wf a -> nth k (row a q r) d = nth (r * q + k) (data a) d.
Proof. intros _ Hk _ _. unfold row. rewrite nth_firstn_lt by auto. apply nth_skipn_add. Qed.
Lemma row_len (a : arr K) p q r : shape a = [p; q] -> r < p -> wf a -> length (row a q r) = q.
Proof.
  intros E Hr W. unfold row. rewrite firstn_length, skipn_length. unfold wf, size in W. rewrite E in W. cbn [prod] in W. nia.
Qed.
Lemma mapM_rows {A B} (f : A -> res B) (P : A -> B -> Prop) l : (forall x, In x l -> exists y, f x = Ok y /\ P x y) -> exists ys, mapM f l = Ok ys /\ Forall2 P l ys.
Proof.
  induction l as [|x l IH]; intros H; [exists []; split; [reflexivity|constructor]|]. destruct (H x (or_introl eq_refl)) as (y & E & Py). destruct IH as (ys & E' & F); [intros; apply H; cbn; auto|].
  exists (y :: ys). cbn [mapM]. rewrite E. cbn [bind]. rewrite E'. split; [reflexivity|constructor; auto].
Qed.
Lemma rows_ok (a : arr K) p q m H h : wf a -> shape a = [p; q] -> acts m q H h -> exists w, apply_rows h m a = Ok w /\ wf w /\ shape w = [p; m] /\
  forall r i, r < p -> i < m -> get w [r; i] = sumn q (fun k => rmul (H i k) (get a [r; k])).
Proof.
  intros W E HA. unfold apply_rows. rewrite E.
  destruct (mapM_rows (fun r => let! w := h (row a q r) in if length w =? m then Ok w else Raise ValueError)
    (fun r w => length w = m /\ forall i, i < m -> nth i w r0 = sumn q (fun k => rmul (H i k) (get a [r; k]))) (seq 0 p)) as (ws & -> & F).
  { intros r Hr. apply in_seq in Hr. destruct (HA (row a q r)) as (w & Ew & Lw & Vw); [apply (row_len a p); auto; lia|]. exists w. rewrite Ew. cbn [bind]. rewrite Lw, Nat.eqb_refl.
    split; [reflexivity|]. split; [auto|]. intros i Hi. rewrite Vw by auto. apply sumn_ext. intros k Hk. rewrite (row_nth a p q) by (auto; lia). unfold get. rewrite E. cbn [ravel prod]. do 2 f_equal. lia. }
  cbn [bind]. assert (FL : Forall (fun w => length w = m) ws) by (clear - F; induction F as [|x y l l' [L _] F IH]; constructor; auto).
  assert (LL : length ws = p) by (apply Forall2_len in F; rewrite seq_length in F; auto).
  eexists. split; [reflexivity|]. split; [|split; [reflexivity|]].
  - unfold wf, size. cbn [shape data prod]. rewrite <- LL. clear - FL. induction FL as [|w ws L F IH]; cbn [concat length]; [reflexivity|]. rewrite app_length, L, IH. cbn [Nat.mul]. lia.
  - intros r i Hr Hi. unfold get at 1. cbn [shape data ravel prod]. replace (r * (m * 1) + (i * 1 + 0)) with (r * m + i) by lia. rewrite (nth_concat ws m) by auto.
    assert (Q : forall l l' r, Forall2 (fun r w => length w = m /\ forall i, i < m -> nth i w r0 = sumn q (fun k => rmul (H i k) (get a [r; k]))) l l' -> r < length l -> nth i (nth r l' []) r0 = sumn q (fun k => rmul (H i k) (get a [nth r l 0; k]))).
    { clear - Hi. intros l l' r F. revert r. induction F as [|x y l l' [L V] F IH]; intros r Hr; cbn [length] in Hr; [lia|]. destruct r as [|r]; cbn [nth]; [apply V; auto|apply IH; lia]. }
    rewrite (Q _ _ r F) by (rewrite seq_length; auto). rewrite seq_nth by auto. reflexivity.
Qed.

(** ** An operator on one axis *)
Lemma in_range_len_eq idx sh : in_range idx sh -> length idx = length sh.
Proof. apply in_range_len. Qed.
Lemma removelast_range idx sh : in_range idx sh -> in_range (removelast idx) (removelast sh).
Proof.
  induction 1 as [|x y l l' Hx F IH]; [constructor|]. cbn [removelast]. destruct F as [|x' y' l l' Hx' F]; [constructor|]. constructor; auto.
Qed.
Lemma removelast_app1 {A} (l : list A) x : removelast (l ++ [x]) = l.
Proof. apply removelast_last. Qed.
Lemma swapL_ne i (l : list nat) : i < length l -> swapL i l <> [].
Proof. intros H Z. apply (f_equal (@length nat)) in Z. rewrite swapL_len in Z. cbn in Z. lia. Qed.
Lemma ravel_snoc sh x n i : in_range x sh -> ravel (sh ++ [n]) (x ++ [i]) = ravel sh x * n + i.
Proof. intros R. rewrite ravel_app by auto. cbn [ravel prod]. lia. Qed.
Lemma len_del i (sh : list nat) : i < length sh -> length (del i sh) = length sh - 1.
Proof. intros H. pose proof (length_del i sh H). lia. Qed.

Lemma axis_general i (v : arr K) m H h : wf v -> i < length (shape v) -> nth i (shape v) 0 <> 0 -> acts m (nth i (shape v) 0) H h ->
  exists t w, axis_apply i v (nth i (shape v) 0) m h = Ok w /\ wf w /\ shape w = swapL i (shape t) /\ wf t /\ shape t = del i (shape v) ++ [m] /\
    (forall idx, in_range idx (shape t) -> get w (swapL i idx) = get t idx) /\
    (del i (shape v) = removelast (swapL i (shape v)) -> forall idx, in_range idx (shape t) ->
      get t idx = sumn (nth i (shape v) 0) (fun k => rmul (H (last idx 0) k) (get v (swapL i (removelast idx ++ [k]))))).
Proof.
  intros W Hi Q HA. set (q := nth i (shape v) 0) in *. set (pre := removelast (swapL i (shape v))).
  assert (SW : swapL i (shape v) = pre ++ [q]) by (apply swapL_last; auto).
  assert (PD : prod (del i (shape v)) = prod pre).
  { pose proof (prod_del i (shape v) Hi) as P1. fold q in P1. pose proof (swapL_prod i (shape v) Hi) as P2. rewrite SW, prod_app in P2. cbn [prod] in P2. nia. }
  unfold axis_apply. destruct (swap_ok v i W Hi) as (b & -> & Wb & Sb & Gb). cbn [bind].
  rewrite (reshape_infer_ok K b [] [q] (prod pre)); [|auto|rewrite Sb, SW, prod_app; cbn [prod]; lia|cbn [prod]; lia]. cbn [bind app].
  assert (Wa : wf (mkArr [prod pre; q] (data b))).
  { unfold wf, size in *. cbn [shape data]. rewrite Wb, Sb, SW, prod_app. reflexivity. }
  destruct (rows_ok _ _ _ _ _ _ Wa eq_refl HA) as (r & -> & Wr & Sr & Gr). cbn [bind].
  rewrite (reshape_ok K r); [|auto|rewrite Sr, prod_app, PD; reflexivity]. cbn [bind].
  set (t := mkArr (del i (shape v) ++ [m]) (data r)).
  assert (Wt : wf t) by (unfold wf, size in *; cbn [shape data t]; rewrite Wr, Sr, prod_app, PD; reflexivity).
  assert (Lt : length (shape t) = length (shape v)) by (cbn [shape t]; rewrite app_length, len_del by auto; cbn [length]; lia).
  destruct (swap_ok t i Wt) as (w & -> & Ww & Sw & Gw); [lia|]. exists t, w. split; [reflexivity|]. split; [exact Ww|]. split; [exact Sw|]. split; [exact Wt|]. split; [reflexivity|]. split; [exact Gw|].
  intros ED idx R. cbn [shape t] in R. apply in_range_app_inv in R as (x & y & -> & Rx & Ry). apply in_range1_inv in Ry as (j & -> & Hj).
  rewrite last_last, removelast_last. fold pre in ED.
  assert (E : get t (x ++ [j]) = get r [ravel pre x; j]).
  { unfold get, t. cbn [shape data]. rewrite ravel_snoc by auto. rewrite Sr. cbn [ravel prod]. rewrite ED. f_equal. lia. }
  rewrite E, Gr; [|apply ravel_lt; rewrite <- ED; auto|auto]. apply sumn_ext. intros k Hk. f_equal.
  rewrite <- (Gb (swapL i (x ++ [k]))).
  - assert (L : i < length (x ++ [k])) by (rewrite app_length; apply in_range_len in Rx; rewrite len_del in Rx by auto; cbn [length]; lia). rewrite swapL_invol by auto.
    unfold get. cbn [shape data]. rewrite Sb, SW, ravel_snoc by (rewrite <- ED; auto). cbn [ravel prod]. f_equal. lia.
  - rewrite <- (swapL_invol i (shape v)) by auto. apply swapL_range; [rewrite swapL_len; auto|]. rewrite SW. rewrite <- ED. apply in_range_app; auto. repeat constructor. exact Hk.
Qed.

Lemma axis_good i (v : arr K) m H h : wf v -> i < length (shape v) -> nth i (shape v) 0 <> 0 -> acts m (nth i (shape v) 0) H h ->
  del i (shape v) = removelast (swapL i (shape v)) ->
  exists w, axis_apply i v (nth i (shape v) 0) m h = Ok w /\ wf w /\ shape w = upd i m (shape v) /\
    forall idx, in_range idx (shape w) -> get w idx = on_axis i (nth i (shape v) 0) H (get v) idx.
Proof.
  intros W Hi Q HA ED. destruct (axis_general i v m H h W Hi Q HA) as (t & w & E & Ww & Sw & Wt & St & G1 & G2). exists w. split; [exact E|]. split; [exact Ww|].
  assert (S : shape w = upd i m (shape v)) by (rewrite Sw, St, ED; apply swapL_upd; auto). split; [exact S|].
  intros idx R. assert (L : length idx = length (shape v)) by (rewrite (in_range_len _ _ R), S, length_upd; reflexivity).
  rewrite <- (swapL_invol i idx) at 1 by lia. assert (R' : in_range (swapL i idx) (shape t)).
  { rewrite <- (swapL_invol i (shape t)) by (rewrite St, app_length, len_del by auto; cbn [length]; lia). rewrite <- Sw. apply swapL_range; [rewrite S, length_upd; auto|auto]. }
  rewrite G1 by auto. rewrite (G2 ED) by auto. unfold on_axis. apply sumn_ext. intros k Hk. rewrite swapL_upd by lia. f_equal. f_equal.
  rewrite (swapL_last i idx) by lia. apply last_last.
Qed.
Lemma axis_bad i (v : arr K) m H h : wf v -> i < length (shape v) -> nth i (shape v) 0 <> 0 -> acts m (nth i (shape v) 0) H h ->
  del i (shape v) <> removelast (swapL i (shape v)) ->
  exists w, axis_apply i v (nth i (shape v) 0) m h = Ok w /\ shape w <> upd i m (shape v) /\ length (shape w) = length (shape v) /\ prod (shape w) = prod (upd i m (shape v)).
Proof.
  intros W Hi Q HA ED. destruct (axis_general i v m H h W Hi Q HA) as (t & w & E & Ww & Sw & Wt & St & G1 & G2). exists w. split; [exact E|].
  assert (L : length (shape t) = length (shape v)) by (rewrite St, app_length, len_del by auto; cbn [length]; lia).
  split; [|split].
  - intros X. apply ED. rewrite Sw in X. rewrite <- (swapL_upd i (shape v) m) in X by auto. apply (f_equal (swapL i)) in X. rewrite !swapL_invol in X.
    + rewrite St in X. apply app_inj_tail in X. apply X.
    + rewrite removelast_len by (apply swapL_ne; auto). now rewrite swapL_len.
    + lia.
  - rewrite Sw, swapL_len. exact L.
  - rewrite Sw, swapL_prod by lia. rewrite St, prod_app. cbn [prod]. rewrite upd_eq by auto. rewrite prod_ins. lia.
Qed.
End Arrays.

(** ** When the shape is right *)
Lemma swapL_split pre q post z : swapL (length pre) (pre ++ q :: post ++ [z]) = pre ++ z :: post ++ [q].
Proof.
  assert (L : length (pre ++ q :: post ++ [z]) = length pre + S (length post + 1)) by (rewrite app_length; cbn [length]; rewrite app_length; reflexivity).
  assert (L' : length (pre ++ z :: post ++ [q]) = length pre + S (length post + 1)) by (rewrite app_length; cbn [length]; rewrite app_length; reflexivity).
  apply (nth_ext_d 0); [rewrite swapL_len; lia|]. intros k Hk. rewrite swapL_len in Hk. rewrite swapL_nth by auto. rewrite L in *. unfold sg.
  destruct (Nat.eqb_spec k (length pre + S (length post + 1) - 1)) as [->|N1].
  - rewrite !app_nth2 by lia. rewrite Nat.sub_diag. replace (length pre + S (length post + 1) - 1 - length pre) with (S (length post)) by lia. cbn [nth]. rewrite app_nth2, Nat.sub_diag by lia. reflexivity.
  - destruct (Nat.eqb_spec k (length pre)) as [->|N2].
    + rewrite !app_nth2 by lia. rewrite Nat.sub_diag. replace (length pre + S (length post + 1) - 1 - length pre) with (S (length post)) by lia. cbn [nth]. rewrite app_nth2, Nat.sub_diag by lia. reflexivity.
    + destruct (Nat.lt_ge_cases k (length pre)); [rewrite !app_nth1 by lia; reflexivity|]. rewrite !app_nth2 by lia. destruct (k - length pre) as [|j] eqn:Ej; [lia|]. cbn [nth]. rewrite !app_nth1 by lia. reflexivity.
Qed.
Lemma rot_eq (post : list nat) z : post ++ [z] = z :: post <-> Forall (eq z) post.
Proof.
  induction post as [|x post IH]; cbn [app]; [split; auto|]. split; intros H.
  - injection H as E H. subst. constructor; auto. apply IH. exact H.
  - inversion H as [|? ? E F]; subst. f_equal. apply IH. exact F.
Qed.
Lemma split_at i (sh : list nat) : i < length sh -> exists pre q post, sh = pre ++ q :: post /\ length pre = i.
Proof.
  revert i. induction sh as [|x sh IH]; intros [|i] H; cbn [length] in H; try lia; [exists [], x, sh; auto|]. destruct (IH i) as (pre & q & post & -> & L); [lia|]. exists (x :: pre), q, post. cbn. auto.
Qed.
Lemma shape_right i sh : i < length sh -> del i sh = removelast (swapL i sh) <-> equal_after i sh.
Proof.
  intros H. destruct (split_at i sh H) as (pre & q & post & -> & <-). rewrite del_at. unfold equal_after.
  assert (SK : skipn (S (length pre)) (pre ++ q :: post) = post).
  { replace (S (length pre)) with (length (pre ++ [q])) by (rewrite app_length; cbn; lia). replace (pre ++ q :: post) with ((pre ++ [q]) ++ post) by (rewrite <- app_assoc; reflexivity). apply skipn_app_len. }
  rewrite SK. destruct (exists_last_or_nil post) as [->|(post' & z & ->)].
  - split; [exists 0; constructor|]. intros _. rewrite app_nil_r.
    rewrite (swapL_last (length pre) (pre ++ [q])) by (rewrite app_length; cbn; lia). rewrite removelast_last. symmetry.
    transitivity (removelast (removelast (swapL (length pre) (pre ++ [q])) ++ [nth (length pre) (pre ++ [q]) 0])); [now rewrite removelast_last|].
    apply (nth_ext_d 0).
    + rewrite removelast_last. rewrite removelast_firstn_len, firstn_length, swapL_len, app_length. cbn. lia.
    + intros k Hk. rewrite removelast_last in *. rewrite removelast_firstn_len, swapL_len, app_length in *. rewrite firstn_length, swapL_len, app_length in Hk. cbn [length] in *.
      rewrite nth_firstn_lt by lia. rewrite swapL_nth by (rewrite app_length; cbn; lia). rewrite app_length. cbn [length]. unfold sg. rewrite (proj2 (Nat.eqb_neq k _)) by lia. rewrite (proj2 (Nat.eqb_neq k _)) by lia. apply app_nth1. lia.
  - rewrite swapL_split. replace (pre ++ z :: post' ++ [q]) with ((pre ++ z :: post') ++ [q]) by (rewrite <- app_assoc; reflexivity). rewrite removelast_last. split; intros X.
    + apply app_inv_head in X. apply rot_eq in X. exists z. apply Forall_app. split; auto.
    + destruct X as (c & X). apply Forall_app in X as [X1 X2]. inversion X2 as [|? ? E F]; subst. f_equal. apply rot_eq. exact X1.
Qed.
Lemma equal_after_le i j sh : i <= j -> equal_after i sh -> equal_after j sh.
Proof.
  intros H (c & F). exists c. replace (S j) with ((j - i) + S i) by lia. rewrite <- skipn_skipn. apply Forall_skipn'. exact F.
Qed.

(** ** Addition in place *)
Lemma fits_refl sh : fits sh sh = true.
Proof. induction sh as [|d sh IH]; cbn; auto. now rewrite Nat.eqb_refl. Qed.
Lemma stretch_same sh idx : in_range idx sh -> stretch sh idx = idx.
Proof.
  induction 1 as [|x d idx sh Hx R IH]; cbn [stretch]; auto. rewrite IH. destruct (Nat.eqb_spec d 1); auto. f_equal. lia.
Qed.
Lemma fits_prod b : Forall (fun d => d <> 0) b -> forall a, fits a b = true -> prod a <= prod b /\ (prod a = prod b -> a = b).
Proof.
  induction 1 as [|t b Ht F IH]; intros [|d a] E; cbn in E; try discriminate; auto.
  apply andb_prop in E as [E1 E2]. destruct (IH a E2) as [L Q]. cbn [prod].
  assert (P : 0 < prod b) by (clear - F; induction F; cbn [prod]; nia).
  apply orb_prop in E1 as [E1|E1]; apply Nat.eqb_eq in E1; subst d.
  - split; [nia|]. intros X. rewrite Q; [reflexivity|]. nia.
  - split; [nia|]. intros X. assert (t = 1) by nia. subst. rewrite Q; [reflexivity|nia].
Qed.

Section Loop.
Context {K : StarRing}.
Add Ring Kr : (r_theory K).
Lemma iadd_ok (a t : arr K) : shape t = shape a -> exists b, iadd a t = Ok b /\ wf b /\ shape b = shape a /\ forall idx, in_range idx (shape a) -> get b idx = radd (get a idx) (get t idx).
Proof.
  intros E. unfold iadd. rewrite E, fits_refl. eexists. split; [reflexivity|]. split; [apply wf_build|]. split; [reflexivity|]. intros idx R. rewrite get_build by auto. now rewrite stretch_same.
Qed.
Lemma iadd_bad (a t : arr K) : Forall (fun d => d <> 0) (shape a) -> prod (shape t) = prod (shape a) -> shape t <> shape a -> iadd a t = Raise ValueError.
Proof.
  intros F P N. unfold iadd. destruct (fits (shape t) (shape a)) eqn:E; [|reflexivity]. destruct (fits_prod _ F _ E) as [_ Q]. destruct (N (Q P)).
Qed.
Lemma loop_ok (v : arr K) Hs : wf v -> Forall (fun d => d <> 0) (shape v) -> equal_tail (shape v) -> forall hs i ans,
  (forall j h, nth_error hs j = Some h -> fst h = nth (i + j) (shape v) 0 /\ i + j < length (shape v) /\ acts (fst h) (fst h) (Hs (i + j)) (snd h)) ->
  wf ans -> shape ans = shape v ->
  exists w, axes_loop v i hs ans = Ok w /\ wf w /\ shape w = shape v /\
    forall idx, in_range idx (shape v) -> get w idx = radd (get ans idx) (sumn (length hs) (fun j => on_axis (i + j) (nth (i + j) (shape v) 0) (Hs (i + j)) (get v) idx)).
Proof.
  intros W F T. induction hs as [|h hs IH]; intros i ans HH Wa Sa.
  - exists ans. cbn [axes_loop length]. split; [reflexivity|]. split; [auto|]. split; [auto|]. intros. rewrite sumn_0. ring.
  - cbn [axes_loop]. destruct (HH 0 h eq_refl) as (E & Hi & HA). rewrite Nat.add_0_r in *. rewrite E in *.
    assert (Q : nth i (shape v) 0 <> 0) by (apply (proj1 (Forall_forall _ _) F), nth_In; auto).
    destruct (axis_good i v (nth i (shape v) 0) (Hs i) (snd h) W Hi Q HA) as (t & -> & Wt & St & Gt).
    { apply shape_right; auto. apply (equal_after_le 0); [lia|]. unfold equal_tail, equal_after in *. destruct (shape v); auto. }
    rewrite upd_same in St. cbn [bind]. destruct (iadd_ok ans t) as (b & -> & Wb & Sb & Gb); [congruence|]. cbn [bind].
    destruct (IH (S i) b) as (w & -> & Ww & Sw & Gw); [|auto|congruence|].
    { intros j h' Hj. replace (S i + j) with (i + S j) by lia. apply HH. exact Hj. }
    exists w. split; [reflexivity|]. split; [auto|]. split; [auto|]. intros idx R. rewrite Gw by auto. rewrite Gb by (rewrite Sa; auto). rewrite Gt by (rewrite St; auto).
    cbn [length]. rewrite sumn_S_l. rewrite Nat.add_0_r. rewrite (sumn_ext K (length hs) (fun j => on_axis (S i + j) _ _ _ _) (fun j => on_axis (i + S j) (nth (i + S j) (shape v) 0) (Hs (i + S j)) (get v) idx)); [ring|].
    intros j Hj. now replace (S i + j) with (i + S j) by lia.
Qed.
Lemma loop_bad (v : arr K) Hs h hs ans : wf v -> Forall (fun d => d <> 0) (shape v) -> ~ equal_tail (shape v) ->
  fst h = nth 0 (shape v) 0 -> acts (fst h) (fst h) Hs (snd h) -> shape ans = shape v -> axes_loop v 0 (h :: hs) ans = Raise ValueError.
Proof.
  intros W F T E HA Sa. cbn [axes_loop]. rewrite E in *. assert (Hi : 0 < length (shape v)) by (destruct (shape v); [exfalso; apply T; exists 0; constructor|cbn; lia]).
  assert (Q : nth 0 (shape v) 0 <> 0) by (apply (proj1 (Forall_forall _ _) F), nth_In; auto).
  destruct (axis_bad 0 v _ _ _ W Hi Q HA) as (t & -> & Nt & Lt & Pt).
  - intros X. apply shape_right in X; [|exact Hi]. apply T. unfold equal_tail, equal_after in *. destruct (shape v); auto.
  - cbn [bind]. rewrite upd_same in Nt, Pt. rewrite iadd_bad; [reflexivity|rewrite Sa; auto..].
Qed.
End Loop.

Section Matvec.
Context {K : StarRing}.
Add Ring Kr' : (r_theory K).
Notation op := (@op1 K).
(** ** The Hamiltonian product *)
Lemma nth_map_seq n (g : nat -> K) k : k < n -> nth k (map g (seq 0 n)) r0 = g k.
Proof. intros H. rewrite (nth_indep _ _ (g 0)) by (rewrite map_length, seq_length; auto). rewrite map_nth, seq_nth by auto. reflexivity. Qed.
Lemma matvec_ok (hs : list op) Hs v_rst vec : Forall (fun h => fst h <> 0) hs -> equal_tail (map fst hs) -> length vec = prod (map fst hs) ->
  (forall i h, nth_error hs i = Some h -> acts (fst h) (fst h) (Hs i) (snd h)) -> (forall d, v_rst = Some d -> length d = length vec) ->
  exists w, po_matvec hs v_rst vec = Ok w /\ length w = prod (map fst hs) /\
    forall idx, in_range idx (map fst hs) -> nth (ravel (map fst hs) idx) w r0 =
      radd (sumn (length hs) (fun i => on_axis i (nth i (map fst hs) 0) (Hs i) (fun x => nth (ravel (map fst hs) x) vec r0) idx))
        (match v_rst with None => r0 | Some d => rmul (nth (ravel (map fst hs) idx) d r0) (nth (ravel (map fst hs) idx) vec r0) end).
Proof.
  intros F T L HA HD. unfold po_matvec. set (sizes := map fst hs) in *.
  assert (F' : Forall (fun d => d <> 0) sizes) by (apply Forall_map; exact F).
  rewrite (reshape_ok K); [|unfold wf, size; cbn [shape data prod]; lia|cbn [shape prod]; lia]. cbn [bind data].
  set (v := mkArr sizes vec). assert (W : wf v) by exact L.
  destruct (loop_ok v Hs W F' T hs 0 (zeros sizes)) as (a & -> & Wa & Sa & Ga).
  { intros j h Hj. cbn [Nat.add]. cbn [shape v]. assert (j < length hs) by (apply nth_error_Some; intros X; pose proof (eq_trans (eq_sym Hj) X); discriminate). split; [|split; [unfold sizes; rewrite map_length; auto|apply HA; auto]].
    unfold sizes. erewrite nth_error_nth; [reflexivity|]. rewrite nth_error_map, Hj. reflexivity. }
  { apply wf_build. } { reflexivity. }
  cbn [bind]. assert (La : length (data a) = prod sizes) by (unfold wf, size in Wa; rewrite Wa, Sa; reflexivity).
  assert (G : forall idx, in_range idx sizes -> nth (ravel sizes idx) (data a) r0 = sumn (length hs) (fun i => on_axis i (nth i sizes 0) (Hs i) (fun x => nth (ravel sizes x) vec r0) idx)).
  { intros idx R. specialize (Ga idx R). unfold get at 1 in Ga. rewrite Sa in Ga. cbn [shape v] in Ga. rewrite Ga. unfold zeros. rewrite get_build by auto. cbn [Nat.add].
    match goal with |- radd _ ?x = _ => transitivity x; [ring|reflexivity] end. }
  destruct v_rst as [d|].
  - rewrite (HD d eq_refl), Nat.eqb_refl. eexists. split; [reflexivity|]. split; [rewrite map_length, seq_length; auto|]. intros idx R. rewrite nth_map_seq by (rewrite L; apply ravel_lt; auto). rewrite G by auto. reflexivity.
  - eexists. split; [reflexivity|]. split; [auto|]. intros idx R. rewrite G by auto. ring.
Qed.
Lemma matvec_bad (hs : list op) Hs v_rst vec : Forall (fun h => fst h <> 0) hs -> ~ equal_tail (map fst hs) -> length vec = prod (map fst hs) ->
  (forall i h, nth_error hs i = Some h -> acts (fst h) (fst h) (Hs i) (snd h)) -> po_matvec hs v_rst vec = Raise ValueError.
Proof.
  intros F T L HA. unfold po_matvec. assert (F' : Forall (fun d => d <> 0) (map fst hs)) by (apply Forall_map; exact F).
  rewrite (reshape_ok K); [|unfold wf, size; cbn [shape data prod]; lia|cbn [shape prod]; lia]. cbn [bind data].
  destruct hs as [|h hs]; [exfalso; apply T; exists 0; constructor|]. rewrite (loop_bad _ (Hs 0)); [reflexivity|exact L|exact F'|exact T|reflexivity|apply HA; reflexivity|reflexivity].
Qed.
Lemma diag_ok {A} sizes (grids : list (list A)) (func : list A -> K) d0 : map (@length A) grids = sizes -> exists d, calc_diag sizes grids func = Ok d /\ length d = prod sizes /\
  forall idx, in_range idx sizes -> nth (ravel sizes idx) d r0 = func (map (fun p => nth (snd p) (fst p) d0) (combine grids idx)).
Proof.
  intros E. unfold calc_diag.
  destruct (mapM_rows (fun i => let! sub := subindex sizes i in let! x := at_grid grids sub in Ok (func x))
    (fun i y => forall idx, in_range idx sizes -> ravel sizes idx = i -> y = func (map (fun p => nth (snd p) (fst p) d0) (combine grids idx))) (seq 0 (prod sizes))) as (d & Ed & F).
  { intros i Hi. apply in_seq in Hi. destruct (subindex_ok sizes i) as (idx & Es & R & V); [lia|]. rewrite Es. cbn [bind]. rewrite (at_grid_ok grids sizes idx d0) by auto. cbn [bind]. eexists. split; [reflexivity|].
    intros idx' R' V'. f_equal. f_equal. f_equal. apply (ravel_inj sizes); auto. congruence. }
  exists d. split; [exact Ed|]. pose proof (Forall2_len _ _ _ F) as L. rewrite seq_length in L. split; [auto|]. intros idx R.
  assert (Q : forall l l' k, Forall2 (fun i y => forall idx, in_range idx sizes -> ravel sizes idx = i -> y = func (map (fun p => nth (snd p) (fst p) d0) (combine grids idx))) l l' -> k < length l -> nth k l 0 = ravel sizes idx ->
    nth k l' r0 = func (map (fun p => nth (snd p) (fst p) d0) (combine grids idx))).
  { clear - R. intros l l' k F. revert k. induction F as [|x y l l' H F IH]; intros k Hk E; cbn [length] in Hk; [lia|]. destruct k as [|k]; cbn [nth] in *; [apply H; auto|apply IH; auto; lia]. }
  pose proof (ravel_lt _ _ R). apply (Q _ _ _ F); [rewrite seq_length; auto|]. now rewrite seq_nth.
Qed.
End Matvec.
