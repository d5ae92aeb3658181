(** Lemmas on the hierarchy with modes on grids. *)
From Coq Require Import List Arith Bool Lia Ring.
From Verif Require Import Py Alg ListX NdArray_Model NdArray_Proof Mode_Proof Contract_Model Contract_Proof Heom_Model Heom_Spec Heom_Proof HeomGrid_Model HeomGrid_Spec.
Import ListNotations.
Local Open Scope nat_scope.

Section Proofs.
Variable K : StarRing.
Add Ring Krg : (r_theory K).
Variables (dims : list nat) (d : nat).
Notation m := (length dims).
Notation rep := (rep K dims d).
Notation computes := (computes K dims d).
Notation sums := (sums K dims d).

(** [M], contracted over its first index, acts as [O]. *)
Definition acts_as (p : nat) (M : arr K) (O : nat -> nat -> K) := wf M /\ shape M = [p; p] /\ forall x y, x < p -> y < p -> get M [y; x] = O x y.

Lemma axis_sum a k M O n i j : rep a -> k < m -> acts_as (nth k dims 0) M O -> in_range n dims ->
  sumn (nth k dims 0) (fun x => rmul (get a (upd k x n ++ [i; j])) (get M [x; nth k n 0])) = on_axis (nth k dims 0) O k (tiers dims a) n i j.
Proof.
  intros R Hk (_ & _ & H) Hn. unfold on_axis. apply sumn_ext. intros x Hx. pose proof (in_range_nth k _ _ Hn Hk) as Hb.
  rewrite H by auto. rewrite tiers_in by (apply in_range_upd_same; auto). unfold occ. ring.
Qed.
Lemma gen_k a k M O : rep a -> k < m -> acts_as (nth k dims 0) M O -> computes [(k, M)] a (on_axis (nth k dims 0) O k (tiers dims a)).
Proof.
  intros R Hk T. destruct (mode_k K dims d a k M R Hk (proj1 (proj2 T))) as (E & R' & G). exists (mode0 a k M). split; [|split; auto].
  - unfold apply_term. rewrite (ndim_rep K dims d a R). rewrite <- E. apply contract_one; [lia| |]; unfold leaf_array; cbn [rev app find fst].
    + rewrite Nat.eqb_refl. reflexivity.
    + intros x N. destruct (Nat.eqb_spec k x); [congruence|reflexivity].
  - intros n i j Hn Hi Hj. rewrite G by auto. apply axis_sum; auto.
Qed.
Lemma gen_i a k A M O : rep a -> k < m -> shape A = [d; d] -> acts_as (nth k dims 0) M O ->
  computes [(m, A); (k, M)] a (fun n i j => sumn d (fun x => rmul (on_axis (nth k dims 0) O k (tiers dims a) n x j) (get A [x; i]))).
Proof.
  intros R Hk Q T. destruct (mode_k K dims d a k M R Hk (proj1 (proj2 T))) as (E & R' & G). destruct (mode_i K dims d _ A R' Q) as (E2 & R2 & G2).
  destruct (two_arrays K m k A M Hk) as (L1 & L2 & L3). exists (mode0 (mode0 a k M) m A). split; [|split; auto].
  - unfold apply_term. rewrite (ndim_rep K dims d a R). rewrite (contract_two K _ a (m + 2) k m M A); auto; [|lia]. rewrite E. cbn [bind]. exact E2.
  - intros n i j Hn Hi Hj. rewrite G2 by auto. apply sumn_ext. intros x Hx. rewrite G by auto. f_equal. apply axis_sum; auto.
Qed.
Lemma gen_j a k A M O : rep a -> k < m -> shape A = [d; d] -> acts_as (nth k dims 0) M O ->
  computes [(m + 1, A); (k, M)] a (fun n i j => sumn d (fun x => rmul (on_axis (nth k dims 0) O k (tiers dims a) n i x) (get A [x; j]))).
Proof.
  intros R Hk Q T. destruct (mode_k K dims d a k M R Hk (proj1 (proj2 T))) as (E & R' & G). destruct (mode_j K dims d _ A R' Q) as (E2 & R2 & G2).
  destruct (two_arrays K (m + 1) k A M) as (L1 & L2 & L3); [lia|]. exists (mode0 (mode0 a k M) (m + 1) A). split; [|split; auto].
  - unfold apply_term. rewrite (ndim_rep K dims d a R). rewrite (contract_two K _ a (m + 2) k (m + 1) M A); auto; [|lia]. rewrite E. cbn [bind]. exact E2.
  - intros n i j Hn Hi Hj. rewrite G2 by auto. apply sumn_ext. intros x Hx. rewrite G by auto. f_equal. apply axis_sum; auto.
Qed.

(** ** Matrices that act *)
Lemma acts_scale p (c : K) M O : acts_as p M O -> acts_as p (arr_scale c M) (fun x y => c * O x y)%S.
Proof. intros (W & E & H). split; [now apply wf_scale|]. split; [exact E|]. intros. rewrite get_scale, H by auto. reflexivity. Qed.
Lemma acts_add p M N O O' : acts_as p M O -> acts_as p N O' -> exists P, arr_add M N = Ok P /\ acts_as p P (fun x y => O x y + O' x y)%S.
Proof.
  intros (W & E & H) (W' & E' & H'). eexists. split; [apply arr_add_ok; auto; congruence|]. split; [apply wf_build|]. split; [exact E|].
  intros. rewrite get_build by (rewrite E; apply in_range2; auto). rewrite H, H' by auto. reflexivity.
Qed.
Lemma acts_ext p M O O' : acts_as p M O -> (forall x y, x < p -> y < p -> O x y = O' x y) -> acts_as p M O'.
Proof. intros (W & E & H) X. split; auto. split; auto. intros. rewrite H, X by auto. reflexivity. Qed.
(** a matrix is the transpose of one that acts *)
Lemma acts_T p M : shape M = [p; p] -> acts_as p (mat_T M) (mat M).
Proof.
  intros E. split; [apply wf_transpose|]. split; [apply shape_T; auto|]. intros x y Hx Hy. unfold mat. rewrite (get_T K p) by auto. reflexivity.
Qed.
Lemma on_axis_add p (O O' : nat -> nat -> K) k rho n i j : on_axis p (fun x y => O x y + O' x y)%S k rho n i j = (on_axis p O k rho n i j + on_axis p O' k rho n i j)%S.
Proof. unfold on_axis. rewrite <- sumn_add. apply sumn_ext. intros. ring. Qed.
Lemma on_axis_scal p (c : K) (O : nat -> nat -> K) k rho n i j : on_axis p (fun x y => c * O x y)%S k rho n i j = (c * on_axis p O k rho n i j)%S.
Proof. unfold on_axis. rewrite <- sumn_scal_l. apply sumn_ext. intros. ring. Qed.

(** ** The three terms of a mode *)
Variables (im : K) (sq : nat -> K) (isq2 half : K) (fk ifk : K -> K -> K).
Variables h op : arr K.
Hypothesis Hh : shape h = [d; d].
Hypothesis Hop : shape op = [d; d].

Definition mode_rhs (o : ladder K) (gamma c c' f f' : K) (k : nat) (rho : ext K) : ext K := fun n i j =>
  let up := on_axis (nth k dims 0) (l_up o) k rho in
  let down := on_axis (nth k dims 0) (l_down o) k rho in
  (gamma * on_axis (nth k dims O) (l_number o) k rho n i j
   - im * (lmul d (tr (mat op)) (fun a b => c * f' * up n a b + f * down n a b) i j
           - rmult d (fun a b => c' * f' * up n a b + f * down n a b) (mat op) i j))%S.

Lemma three_terms a k (o : ladder K) (gamma c c' f f' : K) N U D : rep a -> k < m ->
  acts_as (nth k dims 0) N (l_number o) -> acts_as (nth k dims 0) U (l_up o) -> acts_as (nth k dims 0) D (l_down o) ->
  exists m1 m2, arr_add (arr_scale (c * f')%S U) (arr_scale f D) = Ok m1 /\ arr_add (arr_scale (c' * f')%S U) (arr_scale f D) = Ok m2 /\
    sums [ [(k, arr_scale gamma N)]; [(m, arr_scale (- im)%S op); (k, m1)]; [(m + 1, arr_scale im op); (k, m2)] ] a (mode_rhs o gamma c c' f f' k (tiers dims a)).
Proof.
  intros R Hk HN HU HD.
  destruct (acts_add _ _ _ _ _ (acts_scale _ (c * f')%S _ _ HU) (acts_scale _ f _ _ HD)) as (m1 & E1 & T1).
  destruct (acts_add _ _ _ _ _ (acts_scale _ (c' * f')%S _ _ HU) (acts_scale _ f _ _ HD)) as (m2 & E2 & T2).
  exists m1, m2. split; [exact E1|]. split; [exact E2|].
  eapply sums_ext.
  - apply sums_cons; [eapply gen_k; [exact R|exact Hk|apply acts_scale; exact HN]|].
    apply sums_cons; [eapply gen_i; [exact R|exact Hk|exact Hop|exact T1]|].
    apply sums_cons; [eapply gen_j; [exact R|exact Hk|exact Hop|exact T2]|apply sums_nil].
  - intros n i j Hn Hi Hj. cbv beta. unfold mode_rhs, lmul, rmult, tr, mat. rewrite on_axis_scal.
    set (up := on_axis _ (l_up o) _ _). set (down := on_axis _ (l_down o) _ _).
    rewrite (sumn_ext K d _ (fun x => - im * (get op [x; i] * (c * f' * up n x j + f * down n x j)))%S).
    2: { intros x Hx. rewrite on_axis_add, !on_axis_scal, get_scale. fold up down. ring. }
    rewrite (sumn_ext K d (fun x => rmul (on_axis _ _ _ _ n i x) _) (fun x => im * ((c' * f' * up n i x + f * down n i x) * get op [x; j]))%S).
    2: { intros x Hx. rewrite on_axis_add, !on_axis_scal, get_scale. fold up down. ring. }
    rewrite !sumn_scal_l. ring.
Qed.

Variables der coeff ccoeff : list K.
Variables scale iscale : K.
Hypothesis Lg : length der = m.
Hypothesis Lc : length coeff = m.
Hypothesis Lcc : length ccoeff = m.
Hypothesis S0 : sq 0 = r0.

(** ** Numbered tiers *)
Lemma numbered_ok k : k < m -> exists N U D, numberer K dims k = Ok N /\ raiser3 K sq dims k = Ok U /\ lower3 K sq dims k = Ok D /\
  acts_as (nth k dims 0) N (l_number (numbered sq)) /\ acts_as (nth k dims 0) U (l_up (numbered sq)) /\ acts_as (nth k dims 0) D (l_down (numbered sq)).
Proof.
  intros Hk. destruct (numberer_ok K dims k Hk) as (nn & En & (Sn & Gn) & Dn). unfold raiser3, lower3. rewrite (item_nth dims k 0) by lia. cbn [bind].
  destruct (tri_mul_diag K _ _ _ _ _ sq (tri_up K (nth k dims 0))) as (r & Er & (Sr & Gr)).
  destruct (diag_mul_tri K _ _ _ _ _ sq (tri_dn K (nth k dims 0))) as (l & El & (Sl & Gl)).
  exists nn, r, l. split; [exact En|]. split; [exact Er|]. split; [exact El|]. split; [|split].
  - split; [rewrite Dn; apply wf_build|]. split; [exact Sn|]. intros x y Hx Hy. rewrite Gn by auto. cbn [numbered l_number].
    destruct (Nat.eqb_spec x y) as [->|N]; [rewrite delta_eq, nr_num; ring|]. rewrite (delta_ne K y x) by auto. ring.
  - split; [eapply matmul_wf; exact Er|]. split; [exact Sr|]. intros x y Hx Hy. rewrite Gr by auto. cbn [numbered l_up].
    destruct (Nat.eqb_spec x (S y)) as [->|N]; [rewrite delta_eq; ring|]. rewrite (delta_ne K (S y) x) by auto. ring.
  - split; [eapply matmul_wf; exact El|]. split; [exact Sl|]. intros x y Hx Hy. rewrite Gl by auto. cbn [numbered l_down].
    destruct (Nat.eqb_spec (S x) y) as [<-|N]; [rewrite delta_eq; ring|]. rewrite (delta_ne K y (S x)) by auto. ring.
Qed.

(** ** A grid *)
(** all matrices fit, and there is an [eig_mat] *)
Definition fits (p : nat) (g : grid K) := g_num g = p /\ is_matrix (g_q g) p p /\ is_matrix (g_dq g) p p /\ is_matrix (g_dq2 g) p p /\
  exists e q, g_eig g = Some e /\ shape e = [p; q].
Lemma shown_ok p g M : fits p g -> shape M = [p; p] -> shown K g M = Ok M.
Proof.
  intros (_ & _ & _ & _ & e & q & E & Se) HM. unfold shown. rewrite E.
  assert (ST : shape (mat_T e) = [q; p]). { unfold mat_T, transpose. rewrite shape_build, Se. reflexivity. }
  rewrite (matmul_ok K _ _ q p p ST HM). cbn [bind]. erewrite (matmul_ok K _ _ q p q); [reflexivity| |exact Se]. reflexivity.
Qed.
Lemma diffr_ok p (A B : arr K) : is_matrix A p p -> is_matrix B p p -> exists C, diffr K A B = Ok C /\ is_matrix C p p /\
  forall x y, x < p -> y < p -> mat C x y = (mat A x y - mat B x y)%S.
Proof.
  intros (WA & SA) (WB & SB). unfold diffr. eexists. split; [apply arr_add_ok; auto; [now apply wf_scale|rewrite SA; symmetry; exact SB]|].
  split; [split; [apply wf_build|exact SA]|]. intros x y Hx Hy. unfold mat. rewrite get_build by (rewrite SA; apply in_range2; auto). rewrite get_scale. ring.
Qed.
Lemma sum_ok p (A B : arr K) : is_matrix A p p -> is_matrix B p p -> exists C, arr_add A B = Ok C /\ is_matrix C p p /\
  forall x y, x < p -> y < p -> mat C x y = (mat A x y + mat B x y)%S.
Proof.
  intros (WA & SA) (WB & SB). eexists. split; [apply arr_add_ok; auto; congruence|].
  split; [split; [apply wf_build|exact SA]|]. intros x y Hx Hy. unfold mat. rewrite get_build by (rewrite SA; apply in_range2; auto). reflexivity.
Qed.
Lemma scale_mat p (c : K) A : is_matrix A p p -> is_matrix (arr_scale c A) p p.
Proof. intros (W & E). split; [now apply wf_scale|exact E]. Qed.
Lemma squares_mat p A : is_matrix A p p -> is_matrix (squares K A) p p /\ forall x y, x < p -> y < p -> mat (squares K A) x y = (mat A x y * mat A x y)%S.
Proof.
  intros (W & E). split; [split; [unfold wf, squares in *; cbn [shape data]; now rewrite map_length|exact E]|].
  intros x y Hx Hy. unfold mat, get, squares. cbn [shape data].
  assert (Z : (r0 * r0 = r0 :> K)%S) by ring. rewrite <- Z at 1. exact (map_nth (fun v : K => (v * v)%S) (data A) r0 _).
Qed.
Lemma eye_mat p : is_matrix (@eye K p p) p p /\ forall x y, x < p -> y < p -> mat (@eye K p p) x y = (if x =? y then r1 else r0).
Proof.
  split; [split; [apply wf_build|reflexivity]|]. intros x y Hx Hy. unfold mat, eye. rewrite get_build by (apply in_range2; auto). reflexivity.
Qed.
Definition ops_of (b : option (grid K)) : ladder K :=
  match b with None => numbered sq | Some g => coordinate isq2 half (mat (g_q g)) (mat (g_dq g)) (mat (g_dq2 g)) end.
Lemma grid_ok p g : fits p g -> exists N U D, numberer_g K half g = Ok N /\ raiser_g K isq2 g = Ok U /\ lower_g K isq2 g = Ok D /\
  acts_as p N (l_number (ops_of (Some g))) /\ acts_as p U (l_up (ops_of (Some g))) /\ acts_as p D (l_down (ops_of (Some g))).
Proof.
  intros F. destruct F as (En & Mq & Md & Md2 & X). assert (F : fits p g) by (split; auto).
  unfold numberer_g, raiser_g, lower_g. destruct (squares_mat p _ Mq) as (Ms & Gs). destruct (eye_mat p) as (Me & Ge).
  destruct (diffr_ok p _ _ Ms Md2) as (A & EA & MA & GA). rewrite EA. cbn [bind]. rewrite En.
  destruct (diffr_ok p _ _ MA Me) as (B & EB & MB & GB). rewrite EB. cbn [bind].
  destruct (diffr_ok p _ _ (scale_mat p isq2 _ Mq) (scale_mat p isq2 _ Md)) as (U & EU & MU & GU). rewrite EU. cbn [bind].
  destruct (sum_ok p _ _ (scale_mat p isq2 _ Mq) (scale_mat p isq2 _ Md)) as (D & ED & MD & GD). rewrite ED. cbn [bind].
  pose proof (scale_mat p half _ MB) as MB'.
  exists (mat_T (arr_scale half B)), (mat_T U), (mat_T D).
  split; [apply (shown_ok p); auto; apply shape_T; exact (proj2 MB')|]. split; [apply (shown_ok p); auto; apply shape_T; exact (proj2 MU)|].
  split; [apply (shown_ok p); auto; apply shape_T; exact (proj2 MD)|]. cbn [ops_of coordinate l_number l_up l_down].
  split; [|split]; (eapply acts_ext; [apply acts_T; first [exact (proj2 MB')|exact (proj2 MU)|exact (proj2 MD)]|]); intros x y Hx Hy; cbv beta.
  - unfold mat at 1. rewrite get_scale. fold (mat B x y). rewrite GB, GA, Gs, Ge by auto. reflexivity.
  - rewrite GU by auto. unfold mat at 1 2. rewrite !get_scale. unfold mat. ring.
  - rewrite GD by auto. unfold mat at 1 2. rewrite !get_scale. unfold mat. ring.
Qed.

Variable basis : list (option (grid K)).
Definition basis_fits := length basis = m /\ forall k g, nth_error basis k = Some (Some g) -> fits (nth k dims 0) g.
Hypothesis Hb : basis_fits.

Definition kind_at (k : nat) : option (grid K) := nth k basis None.
Definition f_at (k : nat) : K := match kind_at k with None => scale | Some _ => fk (nth k coeff r0) (nth k ccoeff r0) end.
Definition f_at' (k : nat) : K := match kind_at k with None => iscale | Some _ => ifk (nth k coeff r0) (nth k ccoeff r0) end.

Lemma diff_kg_sums a k : rep a -> k < m ->
  exists l, diff_kg K im sq isq2 half fk ifk dims op der coeff ccoeff scale iscale basis k = Ok l /\
    sums l a (mode_rhs (ops_of (kind_at k)) (nth k der r0) (nth k coeff r0) (nth k ccoeff r0) (f_at k) (f_at' k) k (tiers dims a)).
Proof.
  intros R Hk. destruct Hb as (Lb & Fb). unfold diff_kg.
  rewrite (item_nth coeff k r0), (item_nth ccoeff k r0), (item_nth basis k None) by lia. cbn [bind].
  unfold f_at, f_at'. fold (kind_at k). destruct (kind_at k) as [g|] eqn:Ek.
  - assert (Fg : fits (nth k dims 0) g). { apply (Fb k g). unfold kind_at in Ek. rewrite <- Ek. apply nth_error_nth'. lia. }
    rewrite (item_nth der k r0) by lia. cbn [bind].
    destruct (grid_ok _ g Fg) as (N & U & D & EN & EU & ED & HN & HU & HD). rewrite EN, EU, ED. cbn [bind].
    destruct (three_terms a k _ (nth k der r0) (nth k coeff r0) (nth k ccoeff r0) (fk (nth k coeff r0) (nth k ccoeff r0)) (ifk (nth k coeff r0) (nth k ccoeff r0)) N U D R Hk HN HU HD) as (m1 & m2 & E1 & E2 & T).
    rewrite E1, E2. cbn [bind]. eexists. split; [reflexivity|exact T].
  - unfold diff_k3, k_max. rewrite (item_nth coeff k r0), (item_nth ccoeff k r0), (item_nth der k r0) by lia. cbn [bind].
    destruct (numbered_ok k Hk) as (N & U & D & EN & EU & ED & HN & HU & HD). rewrite EN, EU, ED. cbn [bind].
    destruct (three_terms a k (numbered sq) (nth k der r0) (nth k coeff r0) (nth k ccoeff r0) scale iscale N U D R Hk HN HU HD) as (m1 & m2 & E1 & E2 & T).
    rewrite E1, E2. cbn [bind]. eexists. split; [reflexivity|exact T].
Qed.

Notation rhs := (ladder_rhs im d dims (tr (mat h)) (mat h) (tr (mat op)) (mat op) (fun k => ops_of (kind_at k)) (fun k => nth k der r0)
   (fun k => nth k coeff r0) (fun k => nth k ccoeff r0) f_at f_at').
Theorem grid_terms_ok : exists l, diff_g K im sq isq2 half fk ifk dims h op der coeff ccoeff scale iscale basis = Ok l /\ forall a, rep a ->
  exists b, apply_terms l a = Ok b /\ rep b /\ forall n i j, in_range n dims -> i < d -> j < d -> get b (n ++ [i; j]) = rhs (tiers dims a) n i j.
Proof.
  assert (X : forall a, rep a -> exists l b, diff_g K im sq isq2 half fk ifk dims h op der coeff ccoeff scale iscale basis = Ok l /\ apply_terms l a = Ok b /\ rep b /\
    forall n i j, in_range n dims -> i < d -> j < d -> get b (n ++ [i; j]) = rhs (tiers dims a) n i j).
  { intros a R.
    assert (Sh : sums [ [(m, arr_scale (- im)%S h)]; [(m + 1, arr_scale im h)] ] a
      (fun n i j => - im * (lmul d (tr (mat h)) (tiers dims a n) i j - rmult d (tiers dims a n) (mat h) i j))%S).
    { eapply sums_ext; [apply sums_cons; [apply one_i; auto|]; apply sums_cons; [apply one_j; auto|apply sums_nil]|].
      intros n i j Hn Hi Hj. cbv beta. unfold lmul, rmult, tr, mat.
      rewrite (sumn_ext K d _ (fun x => - im * (get h [x; i] * tiers dims a n x j))%S) by (intros x Hx; rewrite get_scale by auto; ring).
      rewrite (sumn_ext K d (fun x => rmul (tiers dims a n i x) _) (fun x => im * (tiers dims a n i x * get h [x; j]))%S) by (intros x Hx; rewrite get_scale; ring).
      rewrite !sumn_scal_l. ring. }
    destruct (map_res_ok (diff_kg K im sq isq2 half fk ifk dims op der coeff ccoeff scale iscale basis) (fun k l => sums l a
      (mode_rhs (ops_of (kind_at k)) (nth k der r0) (nth k coeff r0) (nth k ccoeff r0) (f_at k) (f_at' k) k (tiers dims a))) (seq 0 m)) as (ls & Ek & F).
    { intros k Hk. apply in_seq in Hk. apply diff_kg_sums; auto; lia. }
    pose proof (sums_app K dims d _ _ a _ _ Sh (sums_concat K dims d _ _ _ _ F)) as T.
    destruct (sums_apply K dims d _ a _ R T) as (b & Eb & Rb & Gb).
    eexists. exists b. split.
    { unfold diff_g. rewrite Ek. cbn [bind]. reflexivity. }
    split; [exact Eb|]. split; [exact Rb|]. intros n i j Hn Hi Hj. rewrite Gb by auto. reflexivity. }
  destruct (X (zeros (dims ++ [d; d]))) as (l & _ & E & _); [split; [apply wf_build|reflexivity]|].
  exists l. split; auto. intros a R. destruct (X a R) as (l' & b & E' & H). assert (l' = l) by congruence. subst l'. exists b. exact H.
Qed.
End Proofs.
