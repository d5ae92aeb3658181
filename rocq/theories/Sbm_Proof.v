(** Proofs: the terms of sbm.py. *)
From Coq Require Import List Arith Bool ZArith Lia Reals Lra.
From Verif Require Import Py Alg Cplx ListX NdArray_Model NdArray_Proof Contract_Model Mode_Proof Phonon_Model Phonon_Spec Phonon_Proof Corr_Model Heom_Model Heom_Spec Heom_Proof HeomThm_Proof Sbm_Spec Sbm_Model.
Import ListNotations.
Local Open Scope nat_scope.
Local Open Scope py_scope.

Section Act.
Context {K : StarRing}.
Add Ring Kr : (r_theory K).
Implicit Types (f g : list nat -> K) (M A : arr K).
(** [M] contracted by its first index with axis [k] *)
Definition act (n k : nat) M f (x : list nat) : K := sumn n (fun y => rmul (f (upd k y x)) (get M [y; nth k x 0])).
Definition comp_at (t : list (nat * arr K)) (a : arr K) (v : list nat -> K) : Prop :=
  exists b, Heom_Model.apply_term t a = Ok b /\ wf b /\ shape b = shape a /\ forall x, in_range x (shape a) -> get b x = v x.

Lemma mode0_at a k M n : wf a -> k < ndim a -> shape M = [n; n] -> nth k (shape a) 0 = n ->
  exists b, partial_product a k (Some M) 0 = Ok b /\ wf b /\ shape b = shape a /\ forall x, in_range x (shape a) -> get b x = act n k M (get a) x.
Proof.
  intros W Hk SM En. exists (mode0 a k M). assert (U : upd k n (shape a) = shape a) by (rewrite <- En; apply upd_same).
  split; [eapply pp_mode0; eauto|]. split; [apply wf_build|]. split; [unfold mode0; rewrite shape_build, SM; exact U|].
  intros x Hx. rewrite get_mode0 by (rewrite SM; cbn [nth]; rewrite U; exact Hx). rewrite En. reflexivity.
Qed.
Lemma act_ext n k M f g x (ns : list nat) : in_range x ns -> k < length ns -> nth k ns 0 = n -> (forall y, in_range y ns -> f y = g y) -> act n k M f x = act n k M g x.
Proof. intros R Hk En H. apply sumn_ext. intros y Hy. f_equal. apply H. apply in_range_upd_same; auto. rewrite En. exact Hy. Qed.
Lemma act_comm n k M p s A f x : k <> s -> k < length x -> s < length x -> act n k M (act p s A f) x = act p s A (act n k M f) x.
Proof.
  intros N Hk Hs. unfold act. erewrite sumn_ext by (intros; rewrite <- sumn_scal_r; reflexivity). rewrite sumn_swap. apply sumn_ext. intros y Hy. rewrite <- sumn_scal_r. apply sumn_ext. intros z Hz.
  rewrite !nth_upd_neq by auto. rewrite upd_comm by auto. ring.
Qed.
Lemma term1 a k M n : wf a -> k < ndim a -> shape M = [n; n] -> nth k (shape a) 0 = n -> comp_at [(k, M)] a (act n k M (get a)).
Proof.
  intros W Hk SM En. destruct (mode0_at a k M n W Hk SM En) as (b & E & R). exists b. split; [|exact R]. unfold Heom_Model.apply_term.
  rewrite (contract_one K [(k, M)] a 0 (ndim a) k M); auto; [lia| |].
  - unfold leaf_array. cbn [rev app find fst]. rewrite Nat.eqb_refl. reflexivity.
  - intros x Nx. unfold leaf_array. cbn [rev app find fst]. destruct (Nat.eqb_spec k x); [congruence|reflexivity].
Qed.
Lemma term2 a k M n s A p : wf a -> k < ndim a -> s < ndim a -> k <> s -> shape M = [n; n] -> nth k (shape a) 0 = n -> shape A = [p; p] -> nth s (shape a) 0 = p ->
  comp_at [(k, M); (s, A)] a (act p s A (act n k M (get a))).
Proof.
  intros W Hk Hs N SM En SA Ep.
  assert (L1 : leaf_array [(k, M); (s, A)] k = Some M). { unfold leaf_array. cbn [rev app find fst]. destruct (Nat.eqb_spec s k); [congruence|]. rewrite Nat.eqb_refl. reflexivity. }
  assert (L2 : leaf_array [(k, M); (s, A)] s = Some A). { unfold leaf_array. cbn [rev app find fst]. rewrite Nat.eqb_refl. reflexivity. }
  assert (L3 : forall x, x <> s -> x <> k -> leaf_array [(k, M); (s, A)] x = None). { intros x N1 N2. unfold leaf_array. cbn [rev app find fst]. destruct (Nat.eqb_spec s x); [congruence|]. destruct (Nat.eqb_spec k x); [congruence|reflexivity]. }
  assert (D : k < s \/ s < k) by lia. destruct D as [D|D].
  - destruct (mode0_at a k M n W Hk SM En) as (b & E & Wb & Sb & Gb). destruct (mode0_at b s A p Wb) as (c & E' & Wc & Sc & Gc); auto; [unfold ndim in *; rewrite Sb; exact Hs|rewrite Sb; exact Ep|].
    exists c. split; [|split; [exact Wc|split; [congruence|]]].
    + unfold Heom_Model.apply_term. rewrite (contract_two K _ a (ndim a) k s M A); auto. rewrite E. exact E'.
    + intros x Hx. rewrite Gc by (rewrite Sb; exact Hx). apply (act_ext p s A _ _ x (shape a)); auto.
  - destruct (mode0_at a s A p W Hs SA Ep) as (b & E & Wb & Sb & Gb). destruct (mode0_at b k M n Wb) as (c & E' & Wc & Sc & Gc); auto; [unfold ndim in *; rewrite Sb; exact Hk|rewrite Sb; exact En|].
    exists c. split; [|split; [exact Wc|split; [congruence|]]].
    + unfold Heom_Model.apply_term. rewrite (contract_two K _ a (ndim a) s k A M); auto. rewrite E. exact E'.
    + intros x Hx. rewrite Gc by (rewrite Sb; exact Hx). rewrite (act_ext n k M _ (act p s A (get a)) x (shape a)) by auto. pose proof (in_range_len _ _ Hx). unfold ndim in *. apply act_comm; auto; lia.
Qed.
(** A list of terms *)
Lemma terms_sum l vs a : wf a -> Forall2 (fun t v => comp_at t a v) l vs ->
  exists b, apply_terms l a = Ok b /\ wf b /\ shape b = shape a /\ forall x, in_range x (shape a) -> get b x = sumL vs (fun v => v x).
Proof.
  intros W F. induction F as [|t v l vs H F IH]; cbn [apply_terms].
  - exists (zeros (shape a)). split; [reflexivity|]. split; [apply wf_build|]. split; [reflexivity|]. intros x Hx. cbn [sumL]. unfold zeros. rewrite get_build by exact Hx. reflexivity.
  - destruct H as (b & E & Wb & Sb & Gb). destruct IH as (c & E' & Wc & Sc & Gc). rewrite E, E'. cbn [bind].
    rewrite arr_add_ok by (auto; congruence). eexists. split; [reflexivity|]. split; [apply wf_build|]. split; [rewrite shape_build; exact Sb|].
    intros x Hx. rewrite get_build by (rewrite Sb; exact Hx). rewrite Gb, Gc by exact Hx. reflexivity.
Qed.
End Act.

Local Open Scope star_scope.
Add Ring Csb : (r_theory C_star).
Definition trm (A : arr C_star) (i j : nat) : C_star := get A [j; i].
Lemma act_system d s (c : C_star) A f x : act d s (arr_scale c A) f x = c * on_system d s (trm A) f x.
Proof. unfold act, on_system. rewrite <- sumn_scal_l. apply sumn_ext. intros y Hy. rewrite get_scale. unfold trm. ring. Qed.
Lemma act_scale_fun d s A (c : C_star) f x : act d s A (fun z => c * f z) x = c * act d s A f x.
Proof. unfold act. rewrite <- sumn_scal_l. apply sumn_ext. intros. ring. Qed.
Lemma act_energy dk k (c : C_star) w f (x ns : list nat) : in_range x ns -> (k < length ns)%nat -> nth k ns 0%nat = dk ->
  act dk k (arr_scale c (hamiltonian_dense dk w 1)) f x = c * (RtoC (w * (INR (nth k x 0%nat) + 1 / 2)) * f x).
Proof.
  intros R Hk En. pose proof (in_range_nth k _ _ R Hk) as Hn. rewrite En in Hn. unfold act. destruct (diag_entries dk (fun n => (1 * w * (0.5 + INR n))%R)) as (_ & _ & G).
  rewrite (sumn_single _ _ (nth k x 0%nat)); auto.
  - rewrite upd_same, get_scale. unfold hamiltonian_dense. rewrite G by auto. unfold diagonal. rewrite Nat.eqb_refl. replace (1 * w * (0.5 + INR (nth k x 0%nat)))%R with (w * (INR (nth k x 0%nat) + 1 / 2))%R by lra. ring.
  - intros y Hy Ny. rewrite get_scale. unfold hamiltonian_dense. rewrite G by auto. unfold diagonal. destruct (Nat.eqb_spec y (nth k x 0%nat)); [congruence|]. ring.
Qed.
Lemma act_ladder dk k g o f (x ns : list nat) : in_range x ns -> (k < length ns)%nat -> nth k ns 0%nat = dk -> (1 <= dk)%nat ->
  entries dk o (fun i j => lower_entry i j + raise_entry i j) -> act dk k (arr_scale (RtoC g) o) f x = RtoC g * ladder k dk f x.
Proof.
  intros R Hk En Hd (_ & _ & G). pose proof (in_range_nth k _ _ R Hk) as Hn. rewrite En in Hn. unfold act, ladder. set (n := nth k x 0%nat) in *.
  rewrite (sumn_ext _ dk (fun y => f (upd k y x) * get (arr_scale (RtoC g) o) [y; n]) (fun y => RtoC g * (f (upd k y x) * lower_entry y n) + RtoC g * (f (upd k y x) * raise_entry y n))).
  2: { intros y Hy. rewrite get_scale, G by auto. ring. }
  rewrite sumn_add, !sumn_scal_l. replace (sumn dk (fun y => f (upd k y x) * lower_entry y n)) with (match n with O => 0 | S p => RtoC (sqrt (INR (S p))) * f (upd k p x) end).
  - replace (sumn dk (fun y => f (upd k y x) * raise_entry y n)) with (if (S n <? dk)%nat then RtoC (sqrt (INR (S n))) * f (upd k (S n) x) else 0); [ring|].
    destruct (Nat.ltb_spec (S n) dk) as [H|H].
    + rewrite (sumn_single _ _ (S n)); auto. * unfold raise_entry. rewrite Nat.eqb_refl. ring. * intros y Hy Ny. unfold raise_entry. destruct (Nat.eqb_spec y (S n)); [congruence|]. ring.
    + symmetry. apply sumn_zero. intros y Hy. unfold raise_entry. destruct (Nat.eqb_spec y (S n)); [lia|]. ring.
  - destruct n as [|p] eqn:E.
    + symmetry. apply sumn_zero. intros y Hy. unfold lower_entry. destruct (Nat.eqb_spec (S y) 0); [lia|]. ring.
    + rewrite (sumn_single _ _ p); [|lia|]. * unfold lower_entry. rewrite Nat.eqb_refl. ring. * intros y Hy Ny. unfold lower_entry. destruct (Nat.eqb_spec (S y) (S p)); [lia|]. ring.
Qed.
Lemma comp_ext {K : StarRing} t (a : arr K) v w : comp_at t a v -> (forall x, in_range x (shape a) -> v x = w x) -> comp_at t a w.
Proof. intros (b & E & W & Sb & G) H. exists b. split; [exact E|split; [exact W|split; [exact Sb|]]]. intros x Hx. rewrite G by exact Hx. apply H. exact Hx. Qed.

Section Modes.
Variables (h op : arr C_star) (d s : nat) (a : arr C_star).
Hypotheses (Wa : wf a) (Hs : (s < ndim a)%nat) (Ds : nth s (shape a) 0%nat = d) (Sh : shape h = [d; d]) (So : shape op = [d; d]).
Definition vals (c : C_star) (f : list nat -> C_star) (m : mode) : list (list nat -> C_star) :=
  let '(k, ((w, g), dk)) := m in
  [fun x => c * (RtoC (w * (INR (nth k x 0%nat) + 1 / 2)) * f x); fun x => c * (RtoC g * on_system d s (trm op) (ladder k dk f) x)].
Lemma mode_vals c k w g dk : (k < ndim a)%nat -> k <> s -> nth k (shape a) 0%nat = dk -> (1 <= dk)%nat ->
  exists l, mode_terms op c s (k, ((w, g), dk)) = Ok l /\ Forall2 (fun t v => comp_at t a v) l (vals c (get a) (k, ((w, g), dk))).
Proof.
  intros Hk N En Hd. destruct (add_entries dk _ _ _ _ (annihilation_entries dk Hd) (creation_entries dk Hd)) as (o & Eo & Ho). unfold mode_terms. rewrite Eo. cbn [bind].
  eexists. split; [reflexivity|]. unfold vals. constructor; [|constructor; [|constructor]].
  - eapply comp_ext; [apply (term1 a k _ dk); auto|].
    + destruct (diag_entries dk (fun n => (1 * w * (0.5 + INR n))%R)) as (_ & SE & _). exact SE.
    + intros x Hx. apply (act_energy dk k c w (get a) x (shape a)); auto.
  - eapply comp_ext; [apply (term2 a k _ dk s _ d); auto; apply Ho|]. intros x Hx. rewrite act_system. f_equal.
    unfold on_system. rewrite <- sumn_scal_l. apply sumn_ext. intros y Hy. rewrite (act_ladder dk k g o (get a) _ (shape a)); auto; [ring|]. apply in_range_upd_same; [exact Hx|]. rewrite Ds. exact Hy.
Qed.
Lemma all_vals c pr dims phs : modes_fit s (shape a) (combine phs (combine pr dims)) ->
  exists l, all_modes op pr dims c s phs = Ok l /\ Forall2 (fun t v => comp_at t a v) l (flat_map (vals c (get a)) (combine phs (combine pr dims))).
Proof.
  unfold modes_fit, all_modes. induction (combine phs (combine pr dims)) as [|(k, ((w, g), dk)) ms IH]; intros F.
  - exists []. split; [reflexivity|constructor].
  - inversion F as [|x l H F' E]; subst x l. destruct H as (Hk & N & En & Hd). destruct (mode_vals c k w g dk Hk N En Hd) as (t & Et & Ft). destruct (IH F') as (l & El & Fl).
    cbn [map_res]. destruct (map_res (mode_terms op c s) ms) as [ls|e]; [|discriminate El]. cbn [bind] in El. injection El as <-.
    rewrite Et. cbn [bind]. exists (t ++ concat ls). split; [reflexivity|]. cbn [flat_map]. apply Forall2_app; assumption.
Qed.
Lemma system_term c A : shape A = [d; d] -> comp_at [(s, arr_scale c A)] a (fun x => c * on_system d s (trm A) (get a) x).
Proof. intros SA. eapply comp_ext; [apply (term1 a s _ d); auto|]. intros x Hx. apply act_system. Qed.
Lemma vals_sum c f ms x : sumL (flat_map (vals c f) ms) (fun v => v x) =
  c * sumL ms (fun m => let '(k, ((w, g), dk)) := m in RtoC (w * (INR (nth k x 0%nat) + 1 / 2)) * f x + RtoC g * on_system d s (trm op) (ladder k dk f) x).
Proof. rewrite sumL_flat_map, <- sumL_scal_l. apply sumL_ext. intros (k, ((w, g), dk)). cbn [vals]. rewrite !sumL_cons, sumL_nil. ring. Qed.
(** The wavefunction *)
Lemma wfn_ok pr dims phs : modes_fit s (shape a) (combine phs (combine pr dims)) ->
  exists l b, wfn_h_list h op pr dims s phs = Ok l /\ apply_terms l a = Ok b /\ wf b /\ shape b = shape a /\
    forall x, in_range x (shape a) -> get b x = - C_i * spin_boson d s (trm h) (trm op) (combine phs (combine pr dims)) (get a) x.
Proof.
  intros F. destruct (all_vals (- C_i) pr dims phs F) as (l & El & Fl). unfold wfn_h_list. rewrite El. cbn [bind].
  destruct (terms_sum ([(s, arr_scale (- C_i) h)] :: l) ((fun x => - C_i * on_system d s (trm h) (get a) x) :: flat_map (vals (- C_i) (get a)) (combine phs (combine pr dims))) a Wa) as (b & Eb & Wb & Sb & Gb).
  { constructor; [apply system_term; exact Sh|exact Fl]. }
  do 2 eexists. split; [reflexivity|]. split; [exact Eb|]. split; [exact Wb|]. split; [exact Sb|]. intros x Hx. rewrite Gb by exact Hx. rewrite sumL_cons, vals_sum. unfold spin_boson. ring.
Qed.
End Modes.

(** ** The Hamiltonian is Hermitian *)
Lemma swap_axis i (ns : list nat) (F : list nat -> list nat -> C_star) : (i < length ns)%nat ->
  sumL (indices ns) (fun n => sumn (nth i ns 0%nat) (fun k => F n (upd i k n))) = sumL (indices ns) (fun n => sumn (nth i ns 0%nat) (fun k => F (upd i k n) n)).
Proof.
  intros Hi. rewrite !(sum_indices_del C_star i ns) by exact Hi. set (D := del i ns). set (q := nth i ns 0%nat).
  assert (U : forall r m k, In r (indices D) -> upd i k (ins i m r) = ins i k r).
  { intros r m k Hr. apply in_indices, in_range_len in Hr. unfold D in Hr. rewrite length_del in Hr by exact Hi. rewrite upd_eq by (rewrite length_ins; lia). rewrite del_ins by lia. reflexivity. }
  transitivity (sumn q (fun m => sumn q (fun k => sumL (indices D) (fun r => F (ins i m r) (ins i k r))))).
  - apply sumn_ext. intros m Hm. unfold sumn. rewrite sumL_swap. apply sumL_ext. intros k. apply sumL_ext_in. intros r Hr. rewrite U by exact Hr. reflexivity.
  - rewrite sumn_swap. apply sumn_ext. intros m Hm. unfold sumn. rewrite sumL_swap. apply sumL_ext_in. intros r Hr. apply sumL_ext. intros k. rewrite U by exact Hr. reflexivity.
Qed.
Section Adjoint.
Variables (ns : list nat) (d s : nat).
Hypotheses (Hs : (s < length ns)%nat) (Ds : nth s ns 0%nat = d).
Lemma scalar_system m f g : (forall i j, (i < d)%nat -> (j < d)%nat -> m i j = rconj (m j i)) -> scalar ns f (on_system d s m g) = scalar ns (on_system d s m f) g.
Proof.
  intros H. unfold scalar, on_system. rewrite (sumL_ext_in C_star (indices ns) _ (fun n => sumn (nth s ns 0%nat) (fun k => (fun n n' => rconj (f n) * (m (nth s n 0%nat) (nth s n' 0%nat) * g n')) n (upd s k n)))).
  - rewrite (swap_axis s ns (fun n n' => rconj (f n) * (m (nth s n 0%nat) (nth s n' 0%nat) * g n'))) by exact Hs. apply sumL_ext_in. intros n Hn. apply in_indices in Hn. pose proof (in_range_len _ _ Hn) as L. pose proof (in_range_nth s _ _ Hn Hs) as B. rewrite Ds in *. cbv beta. rewrite rconj_sumn, <- sumn_scal_r. apply sumn_ext. intros k Hk.
    rewrite nth_upd_eq by lia. rewrite H by auto. rewrite rconj_mul. ring.
  - intros n Hn. apply in_indices in Hn. pose proof (in_range_len _ _ Hn) as L. rewrite Ds. rewrite <- sumn_scal_l. apply sumn_ext. intros k Hk. cbv beta. rewrite nth_upd_eq by lia. reflexivity.
Qed.
End Adjoint.
(** the ladder as a matrix *)
Lemma ladder_matrix (ns : list nat) k dk f n : in_range n ns -> (k < length ns)%nat -> nth k ns 0%nat = dk -> ladder k dk f n = sumn dk (fun y => (raise_entry (nth k n 0%nat) y + lower_entry (nth k n 0%nat) y) * f (upd k y n)).
Proof.
  intros R Hk En. pose proof (in_range_nth k _ _ R Hk) as Hn. rewrite En in Hn. unfold ladder. set (p := nth k n 0%nat) in *.
  rewrite (sumn_ext C_star dk _ (fun y => raise_entry p y * f (upd k y n) + lower_entry p y * f (upd k y n))) by (intros; ring). rewrite sumn_add. f_equal.
  - destruct p as [|p'].
    + symmetry. apply sumn_zero. intros y Hy. unfold raise_entry. destruct (Nat.eqb_spec 0 (S y)); [lia|]. ring.
    + rewrite (sumn_single _ _ p'); [|lia|]. * unfold raise_entry. rewrite Nat.eqb_refl. reflexivity. * intros y Hy Ny. unfold raise_entry. destruct (Nat.eqb_spec (S p') (S y)); [lia|]. ring.
  - destruct (Nat.ltb_spec (S p) dk) as [H|H].
    + rewrite (sumn_single _ _ (S p)); auto. * unfold lower_entry. rewrite Nat.eqb_refl. reflexivity. * intros y Hy Ny. unfold lower_entry. destruct (Nat.eqb_spec (S p) y); [congruence|]. ring.
    + symmetry. apply sumn_zero. intros y Hy. unfold lower_entry. destruct (Nat.eqb_spec (S p) y); [lia|]. ring.
Qed.
Lemma ladder_herm i j : raise_entry i j + lower_entry i j = rconj (raise_entry j i + lower_entry j i).
Proof.
  rewrite rconj_add. unfold raise_entry, lower_entry. destruct (Nat.eqb_spec i (S j)), (Nat.eqb_spec (S i) j), (Nat.eqb_spec j (S i)), (Nat.eqb_spec (S j) i); try lia; subst; rewrite ?RtoC_conj, ?rconj_0; ring.
Qed.
Lemma scalar_ext ns f f' g g' : (forall n, in_range n ns -> f n = f' n) -> (forall n, in_range n ns -> g n = g' n) -> scalar ns f g = scalar ns f' g'.
Proof. intros H1 H2. apply sumL_ext_in. intros n Hn. apply in_indices in Hn. rewrite H1, H2 by exact Hn. reflexivity. Qed.
Lemma scalar_ladder ns k dk f g : (k < length ns)%nat -> nth k ns 0%nat = dk -> scalar ns f (ladder k dk g) = scalar ns (ladder k dk f) g.
Proof.
  intros Hk En. rewrite (scalar_ext ns f f (ladder k dk g) (on_system dk k (fun i j => raise_entry i j + lower_entry i j) g)) by (auto; intros n Hn; apply (ladder_matrix ns k dk g n); auto).
  rewrite (scalar_system ns dk k Hk En _ f g) by (intros; apply ladder_herm). apply scalar_ext; auto. intros n Hn. symmetry. apply (ladder_matrix ns); auto.
Qed.
Lemma scalar_add_r ns f g g' : scalar ns f (fun n => g n + g' n) = scalar ns f g + scalar ns f g'.
Proof. unfold scalar. rewrite <- sumL_add. apply sumL_ext. intros. ring. Qed.
Lemma scalar_add_l ns f f' g : scalar ns (fun n => f n + f' n) g = scalar ns f g + scalar ns f' g.
Proof. unfold scalar. rewrite <- sumL_add. apply sumL_ext. intros. rewrite rconj_add. ring. Qed.
Lemma scalar_scal_r ns c f g : scalar ns f (fun n => c * g n) = c * scalar ns f g.
Proof. unfold scalar. rewrite <- sumL_scal_l. apply sumL_ext. intros. ring. Qed.
Lemma scalar_scal_l ns c f g : scalar ns (fun n => c * f n) g = rconj c * scalar ns f g.
Proof. unfold scalar. rewrite <- sumL_scal_l. apply sumL_ext. intros. rewrite rconj_mul. ring. Qed.
Lemma scalar_real ns (e : list nat -> R) f g : scalar ns f (fun n => RtoC (e n) * g n) = scalar ns (fun n => RtoC (e n) * f n) g.
Proof. unfold scalar. apply sumL_ext. intros. rewrite rconj_mul, RtoC_conj. ring. Qed.
Lemma ladder_ext ns k dk f g n : (k < length ns)%nat -> nth k ns 0%nat = dk -> in_range n ns -> (forall m, in_range m ns -> f m = g m) -> ladder k dk f n = ladder k dk g n.
Proof.
  intros Hk En R H. rewrite !(ladder_matrix ns) by auto. apply sumn_ext. intros y Hy. f_equal. apply H. apply in_range_upd_same; [exact R|rewrite En; exact Hy].
Qed.
Lemma system_ladder d s m k dk f n : k <> s -> (k < length n)%nat -> (s < length n)%nat -> on_system d s m (ladder k dk f) n = ladder k dk (on_system d s m f) n.
Proof.
  intros N Hk Hs. unfold on_system, ladder. rewrite (sumn_ext C_star d _ (fun x => m (nth s n 0%nat) x * match nth k n 0%nat with O => 0 | S p => RtoC (sqrt (INR (S p))) * f (upd s x (upd k p n)) end +
     m (nth s n 0%nat) x * (if (S (nth k n 0%nat) <? dk)%nat then RtoC (sqrt (INR (S (nth k n 0%nat)))) * f (upd s x (upd k (S (nth k n 0%nat)) n)) else 0))).
  - rewrite sumn_add. f_equal.
    + destruct (nth k n 0%nat) as [|p]; [apply sumn_zero; intros; ring|]. rewrite nth_upd_neq by auto. rewrite <- sumn_scal_l. apply sumn_ext. intros. ring.
    + destruct (S (nth k n 0%nat) <? dk)%nat; [|apply sumn_zero; intros; ring]. rewrite nth_upd_neq by auto. rewrite <- sumn_scal_l. apply sumn_ext. intros. ring.
  - intros x Hx. rewrite nth_upd_neq by auto. destruct (nth k n 0%nat) as [|p]; rewrite ?(upd_comm k s) by auto; ring.
Qed.
Lemma boson_hermitian ns d s h x modes f g : (s < length ns)%nat -> nth s ns 0%nat = d -> modes_fit s ns modes -> hermitian_matrix d h -> hermitian_matrix d x ->
  scalar ns f (spin_boson d s h x modes g) = scalar ns (spin_boson d s h x modes f) g.
Proof.
  intros Hs Ds F Hh Hx. unfold spin_boson. rewrite scalar_add_r, scalar_add_l. f_equal; [apply scalar_system; auto|].
  induction modes as [|(k, ((w, c), dk)) ms IH].
  - unfold scalar. apply sumL_ext. intros n. rewrite !sumL_nil, rconj_0. ring.
  - inversion F as [|y l H F' E]; subst y l. destruct H as (Hk & N & En & Hd). specialize (IH F').
    rewrite (scalar_ext ns f f _ (fun n => (RtoC (w * (INR (nth k n 0%nat) + 1 / 2)) * g n + RtoC c * on_system d s x (ladder k dk g) n) + sumL ms (fun m => let '(k, ((w, c), dk)) := m in RtoC (w * (INR (nth k n 0%nat) + 1 / 2)) * g n + RtoC c * on_system d s x (ladder k dk g) n))) by (auto; intros; rewrite sumL_cons; reflexivity).
    rewrite (scalar_ext ns _ (fun n => (RtoC (w * (INR (nth k n 0%nat) + 1 / 2)) * f n + RtoC c * on_system d s x (ladder k dk f) n) + sumL ms (fun m => let '(k, ((w, c), dk)) := m in RtoC (w * (INR (nth k n 0%nat) + 1 / 2)) * f n + RtoC c * on_system d s x (ladder k dk f) n)) g g) by (auto; intros; rewrite sumL_cons; reflexivity).
    rewrite !scalar_add_r, !scalar_add_l, IH. f_equal. f_equal; [apply scalar_real|]. rewrite scalar_scal_r, scalar_scal_l, RtoC_conj. f_equal.
    rewrite (scalar_system ns d s Hs Ds x f _ Hx). rewrite (scalar_ladder ns k dk _ g Hk En). apply scalar_ext; auto. intros n Hn. apply in_range_len in Hn. symmetry. apply system_ladder; lia.
Qed.

(** ** Density operators *)
Lemma spin_boson_ext ns d s h h' x x' modes f g n : (s < length ns)%nat -> nth s ns 0%nat = d -> modes_fit s ns modes -> in_range n ns -> (forall m, in_range m ns -> f m = g m) ->
  (forall i j, (i < d)%nat -> (j < d)%nat -> h i j = h' i j) -> (forall i j, (i < d)%nat -> (j < d)%nat -> x i j = x' i j) ->
  spin_boson d s h x modes f n = spin_boson d s h' x' modes g n.
Proof.
  intros Hs Ds F R H Hh Hx. pose proof (in_range_nth s _ _ R Hs) as Bs. rewrite Ds in Bs. unfold spin_boson. f_equal.
  - apply sumn_ext. intros y Hy. rewrite Hh by auto. f_equal. apply H. apply in_range_upd_same; [exact R|rewrite Ds; exact Hy].
  - induction modes as [|(k, ((w, c), dk)) ms IH]; [reflexivity|]. inversion F as [|z l H0 F' E]; subst z l. destruct H0 as (Hk & N & En & Hd). rewrite !sumL_cons, (IH F'). f_equal. rewrite (H n R). f_equal. f_equal.
    apply sumn_ext. intros y Hy. rewrite Hx by auto. f_equal. apply (ladder_ext ns); auto. apply in_range_upd_same; [exact R|rewrite Ds; exact Hy].
Qed.
Lemma upd_app_r {A} r k (z : A) x y : length x = r -> upd (r + k) z (x ++ y) = x ++ upd k z y.
Proof.
  intros <-. unfold upd. rewrite app_length. replace (length x + k <? length x + length y)%nat with (k <? length y)%nat by (destruct (Nat.ltb_spec k (length y)), (Nat.ltb_spec (length x + k) (length x + length y)); lia || reflexivity).
  destruct (k <? length y)%nat; [|reflexivity]. rewrite firstn_app_2, <- app_assoc. f_equal. f_equal. f_equal. replace (S (length x + k)) with (length x + S k)%nat by lia. rewrite skipn_app, skipn_all2 by lia. replace (length x + S k - length x)%nat with (S k) by lia. reflexivity.
Qed.
Section Outer.
Variables (r d s : nat) (f g : list nat -> C_star).
Definition pairf (z : list nat) : C_star := f (firstn r z) * g (skipn r z).
Lemma pairf_app x y : length x = r -> pairf (x ++ y) = f x * g y.
Proof. intros L. unfold pairf. rewrite <- L, firstn_app, firstn_all, Nat.sub_diag, skipn_app, skipn_all, Nat.sub_diag. cbn [firstn skipn app]. rewrite app_nil_r. reflexivity. Qed.
Definition shifted (modes : list mode) : list mode := map (fun m => ((r + fst m)%nat, snd m)) modes.
Lemma nth_app_l x y k : length x = r -> (k < r)%nat -> nth k (x ++ y) 0%nat = nth k x 0%nat. Proof. intros L H. apply app_nth1. lia. Qed.
Lemma nth_app_r x y k : length x = r -> nth (r + k) (x ++ y) 0%nat = nth k y 0%nat. Proof. intros L. rewrite app_nth2 by lia. f_equal. lia. Qed.
Lemma ladder_first k dk x y : length x = r -> (k < r)%nat -> ladder k dk pairf (x ++ y) = ladder k dk f x * g y.
Proof.
  intros L Hk. unfold ladder. rewrite nth_app_l by auto. destruct (nth k x 0%nat) as [|p]; destruct (_ <? dk)%nat; rewrite ?upd_app_l by lia; rewrite ?pairf_app by (rewrite length_upd; exact L); ring.
Qed.
Lemma ladder_second k dk x y : length x = r -> ladder (r + k) dk pairf (x ++ y) = f x * ladder k dk g y.
Proof.
  intros L. unfold ladder. rewrite nth_app_r by auto. destruct (nth k y 0%nat) as [|p]; destruct (_ <? dk)%nat; rewrite ?upd_app_r by exact L; rewrite ?pairf_app by exact L; ring.
Qed.
Lemma boson_first h X modes x y : length x = r -> (s < r)%nat -> Forall (fun m => (fst m < r)%nat) modes ->
  spin_boson d s h X modes pairf (x ++ y) = spin_boson d s h X modes f x * g y.
Proof.
  intros L Hs F. unfold spin_boson. replace (on_system d s h pairf (x ++ y)) with (on_system d s h f x * g y).
  2: { unfold on_system. rewrite <- sumn_scal_r. apply sumn_ext. intros z Hz. rewrite nth_app_l by auto. rewrite upd_app_l by lia. rewrite pairf_app by (rewrite length_upd; exact L). ring. }
  match goal with |- ?a * ?b + ?s1 = (?a + ?s2) * ?b => cut (s1 = s2 * b); [intros E; rewrite E; ring|] end.
  rewrite <- sumL_scal_r. apply sumL_ext_in. intros (k, ((w, c), dk)) Hm. rewrite Forall_forall in F. specialize (F _ Hm). cbn [fst] in F. rewrite nth_app_l by auto. rewrite pairf_app by exact L.
  replace (on_system d s X (ladder k dk pairf) (x ++ y)) with (on_system d s X (ladder k dk f) x * g y); [ring|].
  unfold on_system. rewrite <- sumn_scal_r. apply sumn_ext. intros z Hz. rewrite nth_app_l by auto. rewrite upd_app_l by lia. rewrite ladder_first by (rewrite ?length_upd; auto). ring.
Qed.
Lemma boson_second h X modes x y : length x = r ->
  spin_boson d (r + s) h X (shifted modes) pairf (x ++ y) = f x * spin_boson d s h X modes g y.
Proof.
  intros L. unfold spin_boson. replace (on_system d (r + s) h pairf (x ++ y)) with (f x * on_system d s h g y).
  2: { unfold on_system. rewrite <- sumn_scal_l. apply sumn_ext. intros z Hz. rewrite nth_app_r by auto. rewrite upd_app_r by exact L. rewrite pairf_app by exact L. ring. }
  match goal with |- ?a * ?b + ?s1 = ?a * (?b + ?s2) => cut (s1 = a * s2); [intros E; rewrite E; ring|] end.
  unfold shifted. rewrite sumL_map, <- sumL_scal_l. apply sumL_ext. intros (k, ((w, c), dk)). cbn [fst snd]. rewrite nth_app_r by auto. rewrite pairf_app by exact L.
  replace (on_system d (r + s) X (ladder (r + k) dk pairf) (x ++ y)) with (f x * on_system d s X (ladder k dk g) y); [ring|].
  unfold on_system. rewrite <- sumn_scal_l. apply sumn_ext. intros z Hz. rewrite nth_app_r by auto. rewrite upd_app_r by exact L. rewrite ladder_second by exact L. ring.
Qed.
End Outer.
Lemma ladder_conj k dk f n : rconj (ladder k dk f n) = ladder k dk (fun m => rconj (f m)) n.
Proof. unfold ladder. rewrite rconj_add. f_equal; [destruct (nth k n 0%nat)|destruct (_ <? dk)%nat]; rewrite ?rconj_0, ?rconj_mul, ?RtoC_conj; reflexivity. Qed.
Lemma boson_conj d s h X modes f n : rconj (spin_boson d s h X modes f n) = spin_boson d s (fun i j => rconj (h i j)) (fun i j => rconj (X i j)) modes (fun m => rconj (f m)) n.
Proof.
  unfold spin_boson, on_system. rewrite rconj_add, rconj_sumn, rconj_sumL. f_equal; [apply sumn_ext; intros; apply rconj_mul|]. apply sumL_ext. intros (k, ((w, c), dk)).
  rewrite rconj_add, !rconj_mul, !RtoC_conj, rconj_sumn. do 2 f_equal. apply sumn_ext. intros. rewrite rconj_mul, ladder_conj. reflexivity.
Qed.
Lemma shifted_combine r phs (q : list ((R * R) * nat)) : combine (map (Nat.add r) phs) q = shifted r (combine phs q).
Proof. revert q. induction phs as [|p phs IH]; intros [|x q]; try reflexivity. cbn [map combine shifted fst snd]. f_equal. apply IH. Qed.
Lemma fit_first s ns ns' modes : (s < length ns)%nat -> modes_fit s ns modes -> modes_fit s (ns ++ ns') modes.
Proof. intros Hs. unfold modes_fit. apply Forall_impl. intros (k, (q, dk)) (Hk & N & En & Hd). rewrite app_length, app_nth1 by exact Hk. repeat split; auto; lia. Qed.
Lemma fit_second s ns ns' modes : modes_fit s ns' modes -> modes_fit (length ns + s) (ns ++ ns') (shifted (length ns) modes).
Proof.
  unfold modes_fit, shifted. rewrite Forall_map. apply Forall_impl. intros (k, (q, dk)) (Hk & N & En & Hd). cbn [fst snd]. rewrite app_length, app_nth2 by lia. replace (length ns + k - length ns)%nat with k by lia. repeat split; auto; lia.
Qed.
Section Density.
Variables (h op : arr C_star) (pr : list (R * R)) (dims phs : list nat) (d s : nat) (ns : list nat).
Hypotheses (Hs : (s < length ns)%nat) (Ds : nth s ns 0%nat = d) (Sh : shape h = [d; d]) (So : shape op = [d; d]) (F : modes_fit s ns (combine phs (combine pr dims))).
Lemma do_value (rho : arr C_star) (f g : list nat -> C_star) : wf rho -> shape rho = ns ++ ns -> (forall x y, in_range x ns -> in_range y ns -> get rho (x ++ y) = f x * g y) ->
  exists l b, do_l_list h op pr dims s (length ns + s)%nat phs (map (Nat.add (length ns)) phs) = Ok l /\ apply_terms l rho = Ok b /\ wf b /\ shape b = shape rho /\
    forall x y, in_range x ns -> in_range y ns -> get b (x ++ y) =
      - C_i * spin_boson d s (trm h) (trm op) (combine phs (combine pr dims)) f x * g y + C_i * (f x * spin_boson d s (trm h) (trm op) (combine phs (combine pr dims)) g y).
Proof.
  intros W SR G. set (modes := combine phs (combine pr dims)) in *. set (r := length ns).
  assert (N1 : (s < ndim rho)%nat) by (unfold ndim; rewrite SR, app_length; lia). assert (N2 : (r + s < ndim rho)%nat) by (unfold ndim; rewrite SR, app_length; unfold r; lia).
  assert (D1 : nth s (shape rho) 0%nat = d) by (rewrite SR, app_nth1 by exact Hs; exact Ds). assert (D2 : nth (r + s) (shape rho) 0%nat = d) by (rewrite SR, app_nth2 by (unfold r; lia); unfold r; replace (length ns + s - length ns)%nat with s by lia; exact Ds).
  assert (F1 : modes_fit s (shape rho) modes) by (rewrite SR; apply fit_first; auto). assert (F2 : modes_fit (r + s) (shape rho) (shifted r modes)) by (rewrite SR; apply fit_second; exact F).
  destruct (all_vals op d s rho W N1 D1 So (- C_i) pr dims phs F1) as (l1 & E1 & A1).
  destruct (all_vals op d (r + s) rho W N2 D2 So C_i pr dims (map (Nat.add r) phs)) as (l2 & E2 & A2). { rewrite shifted_combine. exact F2. } rewrite shifted_combine in A2.
  unfold do_l_list. rewrite E1. cbn [bind]. fold r. rewrite E2. cbn [bind].
  destruct (terms_sum ([[(s, arr_scale (- C_i) h)]; [((r + s)%nat, arr_scale C_i h)]] ++ l1 ++ l2)
    ([fun x => - C_i * on_system d s (trm h) (get rho) x; fun x => C_i * on_system d (r + s) (trm h) (get rho) x] ++ flat_map (vals op d s (- C_i) (get rho)) modes ++ flat_map (vals op d (r + s) C_i (get rho)) (shifted r modes)) rho W) as (b & Eb & Wb & Sb & Gb).
  { apply Forall2_app; [constructor; [apply system_term; auto|constructor; [apply system_term; auto|constructor]]|]. apply Forall2_app; assumption. }
  do 2 eexists. split; [reflexivity|]. split; [exact Eb|]. split; [exact Wb|]. split; [exact Sb|]. intros x y Hx Hy. assert (RR : in_range (x ++ y) (shape rho)) by (rewrite SR; apply Forall2_app; assumption).
  assert (Lx : length x = r) by (apply in_range_len; exact Hx).
  rewrite Gb by exact RR. rewrite !sumL_app, !sumL_cons, sumL_nil, !vals_sum.
  transitivity (- C_i * spin_boson d s (trm h) (trm op) modes (get rho) (x ++ y) + C_i * spin_boson d (r + s) (trm h) (trm op) (shifted r modes) (get rho) (x ++ y)); [unfold spin_boson; ring|].
  assert (GP : forall m, in_range m (shape rho) -> get rho m = pairf r f g m).
  { intros m Hm. rewrite SR in Hm. apply Forall2_app_inv_r in Hm as (m1 & m2 & H1 & H2 & ->). rewrite pairf_app by (apply in_range_len; exact H1). apply G; assumption. }
  rewrite (spin_boson_ext (shape rho) d s (trm h) (trm h) (trm op) (trm op) modes (get rho) (pairf r f g)) by auto. rewrite (spin_boson_ext (shape rho) d (r + s) (trm h) (trm h) (trm op) (trm op) (shifted r modes) (get rho) (pairf r f g)) by auto.
  rewrite boson_second by exact Lx. rewrite boson_first; auto; [ring|]. clear -F. unfold modes_fit in F. eapply Forall_impl; [|exact F]. intros (k, (q, dk)) H. apply H.
Qed.
End Density.

(** ** The hierarchy *)
Lemma coth_occ b w : (b * w <> 0)%R -> (1 / tanh (b * w / 2) = 2 * (1 / (exp (b * w) - 1)) + 1)%R.
Proof.
  intros N. unfold tanh, sinh, cosh. set (t := (b * w / 2)%R). assert (E : exp (b * w) = (exp t * exp t)%R) by (rewrite <- exp_plus; f_equal; unfold t; lra). rewrite E, exp_Ropp. pose proof (exp_pos t) as P.
  assert (N1 : (exp t * exp t - 1 <> 0)%R). { rewrite <- E. intros H. apply N. apply exp_inv. rewrite exp_0. lra. }
  field. repeat split; try lra; nra.
Qed.
Lemma factor_occ beta w : (forall b, beta = Some b -> (b * w <> 0)%R) -> (temp_factor beta w = 2 * occupation beta w + 1)%R.
Proof. intros H. unfold temp_factor, occupation. destruct beta as [b|]; [apply coth_occ; apply H; reflexivity|lra]. Qed.
Lemma flat_pairs (first second : R * R -> C_star) pr rest k : nth k (flat_map (fun p => [first p; second p]) pr ++ rest) 0 = exponentials pr first second rest k.
Proof.
  unfold exponentials. assert (L : length (flat_map (fun p => [first p; second p]) pr) = (2 * length pr)%nat) by (induction pr; cbn [flat_map app length]; lia).
  destruct (Nat.ltb_spec k (2 * length pr)) as [H|H].
  - rewrite app_nth1 by lia. clear L. revert pr H. assert (Q : forall k pr, (k < 2 * length pr)%nat -> nth k (flat_map (fun p => [first p; second p]) pr) 0 = (if Nat.even k then first else second) (nth (k / 2) pr (0, 0)%R) /\ ((S k < 2 * length pr)%nat -> nth (S k) (flat_map (fun p => [first p; second p]) pr) 0 = (if Nat.even (S k) then first else second) (nth (S k / 2) pr (0, 0)%R))).
    { clear k. induction k as [k IH] using lt_wf_ind. intros [|p pr] H; [cbn in H; lia|]. cbn [length] in H. destruct k as [|[|k]].
      - split; reflexivity.
      - split; [reflexivity|]. intros H2. destruct pr as [|q pr]; [cbn in H2; lia|reflexivity].
      - assert (D : forall j, (S (S j) / 2 = S (j / 2))%nat) by (intros j; change (S (S j)) with (2 + j)%nat; rewrite <- (Nat.add_comm j), (Nat.div_add_l 1 2 j) || (replace (2 + j)%nat with (1 * 2 + j)%nat by lia; rewrite Nat.div_add_l by lia; lia)).
        destruct (IH k ltac:(lia) pr ltac:(lia)) as (A & B). rewrite !D. cbn [flat_map app nth Nat.even length]. split; [exact A|]. intros H2. change (Nat.even (S k)) with (Nat.even (S k)) in B. apply B. lia. }
    intros pr H. apply Q. exact H.
  - rewrite app_nth2 by lia. rewrite L. reflexivity.
Qed.
Lemma scaled_rhs_coefs d m H H' X X' sc isc g g' c c' cc cc' rho n i j :
  (forall k, (k < m)%nat -> g k = g' k) -> (forall k, (k < m)%nat -> c k = c' k) -> (forall k, (k < m)%nat -> cc k = cc' k) ->
  scaled_rhs (K := C_star) C_i rsq sc isc d m H H' X X' g c cc rho n i j = scaled_rhs C_i rsq sc isc d m H H' X X' g' c' cc' rho n i j.
Proof.
  intros E1 E2 E3. unfold scaled_rhs. apply (f_equal2 radd); [apply (f_equal2 radd); [apply (f_equal2 rsub); [reflexivity|]|reflexivity]|].
  - apply (f_equal2 rmul); [|reflexivity]. apply sumn_ext. intros k Hk. rewrite E1 by exact Hk. reflexivity.
  - apply sumn_ext. intros k Hk. rewrite E2, E3 by exact Hk. reflexivity.
Qed.
(** names of axes *)
Lemma item_seq m k : (k < m)%nat -> item (seq 0 m) k = Ok k.
Proof. intros H. unfold item. rewrite (nth_error_nth' _ 0%nat) by (rewrite seq_length; exact H). rewrite seq_nth by exact H. reflexivity. Qed.
Lemma map_res_id {A} (f : A -> res A) l : Forall (fun x => f x = Ok x) l -> map_res f l = Ok l.
Proof. induction 1 as [|x l H F IH]; [reflexivity|]. cbn [map_res]. rewrite H. cbn [bind]. rewrite IH. reflexivity. Qed.
Lemma diff3_axes dims h op der c cc sc isc l : diff3 C_star C_i rsq dims h op der c cc sc isc = Ok l -> Forall (Forall (fun p => (fst p < length dims + 2)%nat)) l.
Proof.
  unfold diff3. intros E. destruct (map_res _ _) as [ls|] eqn:M; [|discriminate E]. cbn [bind] in E. injection E as <-. unfold k_max in M |- *. constructor; [|constructor].
  - constructor; [cbn [fst]; lia|constructor].
  - constructor; [cbn [fst]; lia|constructor].
  - apply Forall_concat. assert (Hk : forall k, In k (seq 0 (length dims)) -> (k < length dims)%nat) by (intros k H; apply in_seq in H; lia). revert ls M. induction (seq 0 (length dims)) as [|k ks IH]; intros ls M; cbn [map_res] in M.
    + injection M as <-. constructor.
    + destruct (diff_k3 _ _ _ _ _ _ _ _ _ _ k) as [t|] eqn:Et; [|discriminate M]. cbn [bind] in M. destruct (map_res _ ks) as [ts|]; [|discriminate M]. cbn [bind] in M. injection M as <-. constructor; [|apply IH; [intros; apply Hk; right; assumption|reflexivity]].
      specialize (Hk k (or_introl eq_refl)). unfold diff_k3 in Et. repeat (match type of Et with bind ?x _ = _ => destruct x; [cbn [bind] in Et|discriminate Et] end). injection Et as <-. unfold k_max. repeat constructor; cbn [fst]; lia.
Qed.
Lemma h_list_axes dims h op der c cc sc isc : h_list C_star C_i rsq dims h op der c cc sc isc (length dims) (length dims + 1)%nat (seq 0 (length dims)) = diff3 C_star C_i rsq dims h op der c cc sc isc.
Proof.
  unfold h_list. destruct (diff3 _ _ _ _ _ _ _ _ _ _ _) as [l|] eqn:E; [|reflexivity]. cbn [bind]. apply map_res_id. apply diff3_axes in E. eapply Forall_impl; [|exact E]. intros t Ht. apply map_res_id. eapply Forall_impl; [|exact Ht]. intros (k, M) Hk. cbn [fst snd] in *.
  replace (seq 0 (length dims) ++ [length dims; (length dims + 1)%nat]) with (seq 0 (length dims + 2)) by (rewrite seq_app; cbn [seq Nat.add]; rewrite Nat.add_1_r; reflexivity). rewrite item_seq by exact Hk. reflexivity.
Qed.
