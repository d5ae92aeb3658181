(** The operations on arrays used by the effective Hamiltonian are linear, whatever the shapes. *)
From Coq Require Import List Arith ZArith Bool Lia Ring Reals.
From Verif Require Import Py Alg ListX NdArray_Model NdArray_Proof Contract_Model PoDvr_Model Cplx Mctdh_Model March_Spec.
Import ListNotations.
Local Open Scope nat_scope.
Local Open Scope list_scope.

Section Lin.
Context {K : StarRing}.
Add Ring Kr : (r_theory K).
Variable c : K.
Definition lin (a b z : arr K) : Prop := shape b = shape a /\ shape z = shape a /\ vlin c (data a) (data b) (data z).

Lemma tri_bind {A B} (P : A -> A -> A -> Prop) (Q : B -> B -> B -> Prop) x y z f g k : tri P x y z -> (forall a b d, P a b d -> tri Q (f a) (g b) (k d)) -> tri Q (bind x f) (bind y g) (bind z k).
Proof. destruct x, y, z; cbn; intros H G; try contradiction; auto. Qed.
Lemma tri_same {A} (P : A -> A -> A -> Prop) x : (forall a, P a a a) -> tri P x x x.
Proof. destruct x; cbn; auto. Qed.
Lemma get_lin a b z idx : lin a b z -> get z idx = radd (get a idx) (rmul c (get b idx)).
Proof. intros (E1 & E2 & _ & _ & V). unfold get. rewrite E1, E2. apply V. Qed.
Lemma nth_map_any {X} (f : X -> K) l k : (exists x, In x l /\ nth k (map f l) r0 = f x /\ nth_error l k = Some x) \/ (nth k (map f l) r0 = r0 /\ nth_error l k = None).
Proof.
  revert k. induction l as [|x l IH]; intros [|k]; cbn; auto.
  - left. exists x. auto.
  - destruct (IH k) as [(y & H & E & N)|H]; auto. left. exists y. auto.
Qed.
Lemma vlin_map {X} (f g k : X -> K) l : (forall x, In x l -> k x = radd (f x) (rmul c (g x))) -> vlin c (map f l) (map g l) (map k l).
Proof.
  intros H. split; [now rewrite !map_length|]. split; [now rewrite !map_length|]. intros i. revert i. induction l as [|x l IH]; intros [|i]; cbn [map nth]; try ring; [apply H; now left|apply IH; intros; apply H; now right].
Qed.
Lemma vlin_app a b z a' b' z' : vlin c a b z -> vlin c a' b' z' -> vlin c (a ++ a') (b ++ b') (z ++ z').
Proof.
  intros (L1 & L2 & V) (L1' & L2' & V'). split; [rewrite !app_length; lia|]. split; [rewrite !app_length; lia|]. intros k. destruct (Nat.lt_ge_cases k (length a)) as [H|H].
  - rewrite !app_nth1 by lia. apply V.
  - rewrite !app_nth2 by lia. rewrite L2, L1. apply V'.
Qed.
Lemma vlin_sub s n a b z : vlin c a b z -> vlin c (firstn n (skipn s a)) (firstn n (skipn s b)) (firstn n (skipn s z)).
Proof.
  intros (L1 & L2 & V). split; [rewrite !firstn_length, !skipn_length; lia|]. split; [rewrite !firstn_length, !skipn_length; lia|]. intros k.
  assert (N : forall l : list K, nth k (firstn n (skipn s l)) r0 = if k <? n then nth (s + k) l r0 else r0).
  { intros l. destruct (Nat.ltb_spec k n) as [H|H]; [|apply nth_overflow; rewrite firstn_length; lia].
    rewrite <- (firstn_skipn n (skipn s l)) in *. destruct (Nat.lt_ge_cases k (length (skipn s l))) as [H'|H'].
    - rewrite firstn_skipn. transitivity (nth k (skipn s l) r0).
      + rewrite <- (firstn_skipn n (skipn s l)) at 2. rewrite app_nth1; [reflexivity|]. rewrite firstn_length. lia.
      + clear. revert l. induction s as [|s IH]; intros [|x l]; cbn [skipn Nat.add nth]; auto. destruct k; reflexivity.
    - rewrite firstn_skipn. rewrite nth_overflow by (rewrite firstn_length; lia). rewrite nth_overflow; [reflexivity|]. rewrite skipn_length in H'. lia. }
  rewrite !N. destruct (k <? n); [apply V|ring].
Qed.
Lemma build_lin sh f g k : (forall idx, k idx = radd (f idx) (rmul c (g idx))) -> lin (build sh f) (build sh g) (build sh k).
Proof. intros H. split; [reflexivity|]. split; [reflexivity|]. unfold build. cbn [data]. apply vlin_map. auto. Qed.
Lemma size_lin a b z : lin a b z -> length (data b) = length (data a) /\ length (data z) = length (data a).
Proof. intros (_ & _ & L1 & L2 & _). auto. Qed.

Lemma reshape_lin a b z sh : lin a b z -> tri lin (reshape a sh) (reshape b sh) (reshape z sh).
Proof.
  intros (E1 & E2 & V). pose proof V as (L1 & L2 & _). unfold reshape, size. rewrite ?L1, ?L2, ?E1, ?E2. destruct (prod sh =? _); cbn; auto. split; [reflexivity|]. split; [reflexivity|]. exact V.
Qed.
Lemma infer_lin a b z pre post : lin a b z -> tri lin (reshape_infer a pre post) (reshape_infer b pre post) (reshape_infer z pre post).
Proof.
  intros (E1 & E2 & V). pose proof V as (L1 & L2 & _). unfold reshape_infer, size. rewrite ?L1, ?L2, ?E1, ?E2. destruct (_ =? 0); cbn; auto. destruct (_ =? 0); cbn; auto. split; [reflexivity|]. split; [reflexivity|]. exact V.
Qed.
Lemma transpose_lin a b z o : lin a b z -> lin (transpose a o) (transpose b o) (transpose z o).
Proof. intros L. pose proof L as (E1 & E2 & _). unfold transpose, ndim. rewrite E1, E2. apply build_lin. intros idx. now apply get_lin. Qed.
Lemma swap_lin a b z i j : lin a b z -> tri lin (swapaxes a i j) (swapaxes b i j) (swapaxes z i j).
Proof. intros L. pose proof L as (E1 & E2 & _). unfold swapaxes, ndim. rewrite E1, E2. destruct (_ && _); cbn; auto. now apply transpose_lin. Qed.
Lemma move_lin a b z s d : lin a b z -> tri lin (moveaxis a s d) (moveaxis b s d) (moveaxis z s d).
Proof. intros L. pose proof L as (E1 & E2 & _). unfold moveaxis, ndim. rewrite E1, E2. destruct (forallb _ _); cbn; auto. now apply transpose_lin. Qed.
Lemma sumn_lin n (f g k : nat -> K) : (forall i, k i = radd (f i) (rmul c (g i))) -> sumn n k = radd (sumn n f) (rmul c (sumn n g)).
Proof. intros H. rewrite <- sumn_scal_l, <- sumn_add. apply sumn_ext. auto. Qed.
Lemma matmul_l a b z m : lin a b z -> tri lin (matmul a m) (matmul b m) (matmul z m).
Proof.
  intros L. pose proof L as (E1 & E2 & _). unfold matmul. rewrite E1, E2. destruct (shape a) as [|n [|p [|]]]; cbn; auto. destruct (shape m) as [|q [|r [|]]]; cbn; auto. destruct (p =? q); cbn [tri]; auto.
  apply build_lin. intros idx. apply sumn_lin. intros k. rewrite (get_lin a b z) by auto. ring.
Qed.
Lemma matmul_r a b z m : lin a b z -> tri lin (matmul m a) (matmul m b) (matmul m z).
Proof.
  intros L. pose proof L as (E1 & E2 & _). unfold matmul. rewrite E1, E2. destruct (shape m) as [|n [|p [|]]]; cbn; auto. destruct (shape a) as [|q [|r [|]]]; cbn; auto. destruct (p =? q); cbn [tri]; auto.
  apply build_lin. intros idx. apply sumn_lin. intros k. rewrite (get_lin a b z) by auto. ring.
Qed.
Lemma trace_lin a b z i m : lin a b z -> tri lin (mctdh_partial_product i a m) (mctdh_partial_product i b m) (mctdh_partial_product i z m).
Proof.
  intros L. pose proof L as (E1 & E2 & _). unfold mctdh_partial_product, partial_trace, ndim. rewrite E1, E2. destruct i as [i|].
  - destruct (negb _); cbn [tri]; auto. eapply tri_bind; [apply move_lin; eauto|]. intros a1 b1 z1 L1. eapply tri_bind; [apply infer_lin; eauto|]. intros a2 b2 z2 L2.
    destruct (moveaxis m _ _); cbn [bind tri]; auto. destruct (reshape_infer _ _ _); cbn [bind tri]; auto. now apply matmul_l.
  - eapply tri_bind; [apply infer_lin; eauto|]. intros a1 b1 z1 L1. destruct (reshape_infer m _ _) as [m1|]; cbn [bind tri]; auto. unfold dot1. pose proof L1 as (F1 & F2 & _). rewrite F1, F2.
    destruct (shape a1) as [|n [|]]; cbn; auto. destruct (shape m1) as [|q [|]]; cbn; auto. destruct (n =? q); cbn [tri]; auto. split; [reflexivity|]. split; [reflexivity|].
    cbn [data]. split; [reflexivity|]. split; [reflexivity|]. intros [|[|k]]; cbn [nth]; try ring. apply sumn_lin. intros k. rewrite (get_lin a1 b1 z1) by auto. ring.
Qed.
Lemma add_lin a b z a' b' z' : lin a b z -> lin a' b' z' -> tri lin (arr_add a a') (arr_add b b') (arr_add z z').
Proof.
  intros (E1 & E2 & L1 & L2 & V) (E1' & E2' & L1' & L2' & V'). unfold arr_add. rewrite E1, E2, E1', E2'. destruct (list_eq_dec _ _ _); cbn [tri]; auto. split; [reflexivity|]. split; [reflexivity|]. cbn [data].
  split; [rewrite !map_length, !combine_length; congruence|]. split; [rewrite !map_length, !combine_length; congruence|].
  assert (N : forall (x y : list K) k, nth k (map (fun p => radd (fst p) (snd p)) (combine x y)) r0 = if (k <? length x) && (k <? length y) then radd (nth k x r0) (nth k y r0) else r0).
  { induction x as [|x0 x IH]; intros [|y0 y] [|k]; cbn [combine map nth length]; try reflexivity; [now rewrite Bool.andb_false_r|]. rewrite IH. reflexivity. }
  intros k. rewrite !N. rewrite L1, L2, L1', L2'. destruct (_ && _); [rewrite V, V'; ring|ring].
Qed.

(** [dot_vec] *)
Lemma dot_lin_v m a b z : vlin c a b z -> tri (vlin c) (dot_vec m a) (dot_vec m b) (dot_vec m z).
Proof.
  intros (L1 & L2 & V). unfold dot_vec. rewrite L1, L2. destruct (shape m) as [|p [|q [|]]]; cbn; auto. destruct (_ =? q); cbn [tri]; auto. apply vlin_map. intros x _. apply sumn_lin. intros k. rewrite V. ring.
Qed.
Lemma dot_lin_m a b z v : lin a b z -> tri (vlin c) (dot_vec a v) (dot_vec b v) (dot_vec z v).
Proof.
  intros L. pose proof L as (E1 & E2 & _). unfold dot_vec. rewrite E1, E2. destruct (shape a) as [|p [|q [|]]]; cbn; auto. destruct (_ =? q); cbn [tri]; auto. apply vlin_map. intros x _. apply sumn_lin. intros k. rewrite (get_lin a b z) by auto. ring.
Qed.
Lemma mapM_lin {X} (f g k : X -> res (list K)) l : (forall x, In x l -> tri (vlin c) (f x) (g x) (k x)) -> tri (fun x y z => vlin c (concat x) (concat y) (concat z)) (mapM f l) (mapM g l) (mapM k l).
Proof.
  induction l as [|x l IH]; intros H; [cbn; split; [reflexivity|]; split; [reflexivity|]; intros [|k0]; cbn; ring|]. cbn [mapM]. eapply tri_bind; [apply H; now left|]. intros a b z V. eapply tri_bind; [apply IH; intros; apply H; now right|].
  intros a' b' z' V'. cbn [tri concat]. now apply vlin_app.
Qed.
Lemma rows_lin f g k m a b z : shape b = shape a -> shape z = shape a -> (forall q r, tri (vlin c) (f (row a q r)) (g (row b q r)) (k (row z q r))) ->
  tri lin (apply_rows f m a) (apply_rows g m b) (apply_rows k m z).
Proof.
  intros E1 E2 H. unfold apply_rows. rewrite E1, E2. destruct (shape a) as [|p [|q [|]]]; cbn [tri]; auto. eapply tri_bind.
  - apply mapM_lin. intros r _. eapply tri_bind; [apply H|]. intros x y w (L1 & L2 & V). rewrite L1, L2. destruct (length x =? m); cbn [tri]; auto. repeat split; auto.
  - intros x y w V. cbn [tri]. split; [reflexivity|]. split; [reflexivity|]. exact V.
Qed.
Lemma axis_lin_v i a b z q m h : (forall x y w, vlin c x y w -> tri (vlin c) (h x) (h y) (h w)) -> lin a b z -> tri lin (axis_apply i a q m h) (axis_apply i b q m h) (axis_apply i z q m h).
Proof.
  intros H L. pose proof L as (E1 & E2 & _). unfold axis_apply, ndim. rewrite E1, E2. eapply tri_bind; [apply swap_lin; eauto|]. intros a1 b1 z1 L1. eapply tri_bind; [apply infer_lin; eauto|]. intros a2 b2 z2 L2.
  eapply tri_bind. { apply rows_lin; [apply L2|apply L2|]. intros q0 r. apply H. unfold row. apply vlin_sub. apply L2. }
  intros a3 b3 z3 L3. eapply tri_bind; [apply reshape_lin; eauto|]. intros a4 b4 z4 L4. pose proof L4 as (F1 & F2 & _). rewrite F1, F2. now apply swap_lin.
Qed.
Lemma axis_lin_h i t q m f g k : (forall v, tri (vlin c) (f v) (g v) (k v)) -> tri lin (axis_apply i t q m f) (axis_apply i t q m g) (axis_apply i t q m k).
Proof.
  intros H. unfold axis_apply. destruct (swapaxes t _ _); cbn [bind tri]; auto. destruct (reshape_infer _ _ _); cbn [bind tri]; auto. eapply tri_bind; [apply rows_lin; auto|].
  intros a3 b3 z3 L3. eapply tri_bind; [apply reshape_lin; eauto|]. intros a4 b4 z4 L4. pose proof L4 as (F1 & F2 & _). unfold ndim. rewrite F1, F2. now apply swap_lin.
Qed.
Lemma transform_t i a b z m : lin a b z -> tri lin (partial_transform i a m) (partial_transform i b m) (partial_transform i z m).
Proof. intros L. unfold partial_transform. destruct (shape m) as [|n [|q [|]]]; cbn [tri]; auto. apply axis_lin_v; auto. intros x y w. apply dot_lin_v. Qed.
Lemma transform_m i t a b z : lin a b z -> tri lin (partial_transform i t a) (partial_transform i t b) (partial_transform i t z).
Proof.
  intros L. pose proof L as (E1 & E2 & _). unfold partial_transform. rewrite E1, E2. destruct (shape a) as [|n [|q [|]]]; cbn [tri]; auto. apply axis_lin_h. intros v. now apply dot_lin_m.
Qed.
Lemma zeros_lin sh : lin (zeros sh) (zeros sh) (zeros sh).
Proof. unfold zeros. apply build_lin. intros. ring. Qed.
End Lin.

(** ** The effective Hamiltonian *)
Section Eff.
Variable c : C_star.
Add Ring Cr : (r_theory C_star).
Lemma coeff_lin : forall term a b z, lin c a b z -> tri (lin c) (coeff_op a term) (coeff_op b term) (coeff_op z term).
Proof. induction term as [|(i, m) term IH]; intros a b z L; cbn [coeff_op]; [exact L|]. eapply tri_bind; [apply transform_t; eauto|]. auto. Qed.
Lemma sub_lin shapes i a b z : vlin c a b z -> tri (lin c) (get_sub_vec shapes i a) (get_sub_vec shapes i b) (get_sub_vec shapes i z).
Proof.
  intros V. unfold get_sub_vec. destruct (nth_error shapes _) as [sh|]; cbn [tri]; auto.
  match goal with |- context [firstn ?n (skipn ?s a)] => pose proof (vlin_sub c s n _ _ _ V) as W end. apply reshape_lin. pose proof W as (L1 & L2 & _). rewrite L1, L2. split; [reflexivity|]. split; [reflexivity|]. exact W.
Qed.
Lemma sp_lin inv err shapes self i a b z hl mods : lin c a b z -> tri (lin c) (sp_op inv err shapes self i a hl mods) (sp_op inv err shapes self i b hl mods) (sp_op inv err shapes self i z hl mods).
Proof.
  intros L. pose proof L as (E1 & E2 & _). unfold sp_op. rewrite E1, E2. destruct hl as [|h hl]; [apply zeros_lin|]. destruct (shape a) as [|n [|m [|]]]; cbn [tri]; auto.
  repeat match goal with
  | |- tri _ (bind ?x _) (bind ?x _) (bind ?x _) => destruct x; cbn [bind tri]; auto
  end.
  eapply tri_bind; [apply transform_m; eauto|]. intros a_1 b_1 z_1 L1. eapply tri_bind; [apply coeff_lin; eauto|]. intros a_2 b_2 z_2 L2. eapply tri_bind; [apply coeff_lin; eauto|]. intros a_3 b_3 z_3 L3.
  eapply tri_bind; [apply trace_lin; eauto|]. intros a_4 b_4 z_4 L4. eapply tri_bind; [apply matmul_l; eauto|]. intros a_5 b_5 z_5 L5. now apply matmul_r.
Qed.
Lemma term_lin inv err shapes self a b z ht mt : vlin c a b z -> tri (vlin c) (term_hamiltonian inv err shapes self a ht mt) (term_hamiltonian inv err shapes self b ht mt) (term_hamiltonian inv err shapes self z ht mt).
Proof.
  intros V. unfold term_hamiltonian. eapply tri_bind.
  - apply mapM_lin. intros i _. unfold term_part. eapply tri_bind; [apply sub_lin; eauto|]. intros a1 b1 z1 L1. apply (tri_bind (lin c)); [|intros a2 b2 z2 L2; apply L2]. destruct (i <? _); [now apply sp_lin|now apply coeff_lin].
  - intros x y w W. exact W.
Qed.
Lemma terms_lin inv err shapes self a b z : vlin c a b z -> forall l x y w, lin c x y w -> tri (lin c) (add_terms inv err shapes self a l x) (add_terms inv err shapes self b l y) (add_terms inv err shapes self z l w).
Proof.
  intros V. induction l as [|(ht, mt) l IH]; intros x y w L; cbn [add_terms]; [exact L|]. eapply tri_bind; [apply term_lin; eauto|]. intros a1 b1 z1 V1. eapply tri_bind; [|eauto].
  apply add_lin; auto. pose proof V1 as (L1 & L2 & _). rewrite L1, L2. split; [reflexivity|]. split; [reflexivity|]. exact V1.
Qed.
Lemma matvec_lin inv err shapes self terms a b z : vlin c a b z -> tri (lin c) (h_matvec inv err shapes self a terms) (h_matvec inv err shapes self b terms) (h_matvec inv err shapes self z terms).
Proof.
  intros V. unfold h_matvec. destruct (update_mod_terms _ _ _); cbn [bind tri]; auto. pose proof V as (L1 & L2 & _). rewrite L1, L2. apply terms_lin; auto. apply zeros_lin.
Qed.

(** ** The Hamiltonian of [PO_DVR] *)
Lemma iadd_lin a b z a' b' z' : lin c a b z -> lin c a' b' z' -> tri (lin c) (iadd a a') (iadd b b') (iadd z z').
Proof.
  intros L L'. pose proof L as (E1 & E2 & _). pose proof L' as (E1' & E2' & _). unfold iadd. rewrite E1, E2, E1', E2'. destruct (fits _ _); cbn [tri]; auto. apply build_lin. intros idx. rewrite (get_lin c a b z), (get_lin c a' b' z') by auto. ring.
Qed.
Lemma loop_lin a b z : lin c a b z -> forall (hs : list (@op1 C_star)), Forall (fun h => linear_op (snd h)) hs -> forall i x y w, lin c x y w ->
  tri (lin c) (axes_loop a i hs x) (axes_loop b i hs y) (axes_loop z i hs w).
Proof.
  intros L hs F. induction F as [|h hs H F IH]; intros i x y w L'; cbn [axes_loop]; [exact L'|]. eapply tri_bind; [apply axis_lin_v; [apply H|exact L]|]. intros a1 b1 z1 L1. eapply tri_bind; [apply iadd_lin; eauto|]. auto.
Qed.
Lemma po_lin (hs : list (@op1 C_star)) d a b z : Forall (fun h => linear_op (snd h)) hs -> vlin c a b z -> tri (vlin c) (po_matvec hs d a) (po_matvec hs d b) (po_matvec hs d z).
Proof.
  intros F V. pose proof V as (L1 & L2 & Vn). unfold po_matvec. rewrite L1, L2. eapply tri_bind; [apply (reshape_lin c); split; [reflexivity|split; [reflexivity|exact V]]|]. intros a1 b1 z1 La. eapply tri_bind; [apply loop_lin; [exact La|exact F|apply zeros_lin]|].
  intros a2 b2 z2 (E1 & E2 & V2). destruct d as [d|]; [|exact V2]. destruct (length d =? length a); cbn [tri]; auto. apply vlin_map. intros k _. destruct V2 as (_ & _ & V2). rewrite V2, Vn. ring.
Qed.
End Eff.
