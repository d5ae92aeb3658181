(** C73: the terms of the spin-boson model of sbm.py. *)
From Coq Require Import List Arith Bool ZArith Lia Reals Lra.
From Verif Require Import Py Alg Cplx ListX NdArray_Model NdArray_Proof Phonon_Model Corr_Model Heom_Model Heom_Spec Heom_Proof HeomThm_Proof Sbm_Spec Sbm_Model Sbm_Proof.
Import ListNotations.
Local Open Scope nat_scope.
Local Open Scope py_scope.
Local Open Scope star_scope.
Add Ring Kc : (r_theory C_star).

(** [wfn_h_list] is -i times the Hamiltonian, with the system's two matrices transposed. *)
Theorem C73_wfn_transposed :
  forall (h op a : arr C_star) d s pr dims phs,
    wf a -> (s < length (shape a))%nat -> nth s (shape a) 0%nat = d -> shape h = [d; d] -> shape op = [d; d] ->
    modes_fit s (shape a) (combine phs (combine pr dims)) ->
    exists l b, wfn_h_list h op pr dims s phs = Ok l /\ apply_terms l a = Ok b /\ wf b /\ shape b = shape a /\
    forall n, in_range n (shape a) ->
      get b n = - C_i * spin_boson d s (fun i j => get h [j; i]) (fun i j => get op [j; i]) (combine phs (combine pr dims)) (get a) n.
Proof. intros h op a d s pr dims phs W Hs Ds Sh So F. exact (wfn_ok h op d s a W Hs Ds Sh So pr dims phs F). Qed.
Print Assumptions C73_wfn_transposed.

(** For symmetric matrices it is -i times the Hamiltonian. *)
Theorem C73_wfn :
  forall (h op a : arr C_star) d s pr dims phs,
    wf a -> (s < length (shape a))%nat -> nth s (shape a) 0%nat = d -> shape h = [d; d] -> shape op = [d; d] ->
    symmetric d (fun i j => get h [i; j]) -> symmetric d (fun i j => get op [i; j]) ->
    modes_fit s (shape a) (combine phs (combine pr dims)) ->
    exists l b, wfn_h_list h op pr dims s phs = Ok l /\ apply_terms l a = Ok b /\ wf b /\ shape b = shape a /\
    forall n, in_range n (shape a) ->
      get b n = - C_i * spin_boson d s (fun i j => get h [i; j]) (fun i j => get op [i; j]) (combine phs (combine pr dims)) (get a) n.
Proof.
  intros h op a d s pr dims phs W Hs Ds Sh So Yh Yo F. destruct (C73_wfn_transposed h op a d s pr dims phs W Hs Ds Sh So F) as (l & b & El & Eb & Wb & Sb & Gb).
  exists l, b. do 4 (split; [assumption|]). intros n Hn. rewrite Gb by exact Hn. f_equal. apply (spin_boson_ext (shape a)); auto.
Qed.
Print Assumptions C73_wfn.

(** The generator is anti-Hermitian, for any Hermitian matrices: scalar products, so norms, do not change to first order. *)
Theorem C73_wfn_norm :
  forall (h op a a' : arr C_star) d s pr dims phs,
    wf a -> wf a' -> shape a' = shape a -> (s < length (shape a))%nat -> nth s (shape a) 0%nat = d -> shape h = [d; d] -> shape op = [d; d] ->
    hermitian_matrix d (fun i j => get h [i; j]) -> hermitian_matrix d (fun i j => get op [i; j]) ->
    modes_fit s (shape a) (combine phs (combine pr dims)) ->
    exists l b b', wfn_h_list h op pr dims s phs = Ok l /\ apply_terms l a = Ok b /\ apply_terms l a' = Ok b' /\
    scalar (shape a) (get b') (get a) + scalar (shape a) (get a') (get b) = r0.
Proof.
  intros h op a a' d s pr dims phs W W' SA Hs Ds Sh So Yh Yo F.
  destruct (C73_wfn_transposed h op a d s pr dims phs W Hs Ds Sh So F) as (l & b & El & Eb & Wb & Sb & Gb).
  destruct (C73_wfn_transposed h op a' d s pr dims phs W') as (l' & b' & El' & Eb' & Wb' & Sb' & Gb'); try (rewrite SA; assumption); try assumption.
  rewrite El in El'. injection El' as <-. exists l, b, b'. do 3 (split; [assumption|]).
  set (H := spin_boson d s (fun i j => get h [j; i]) (fun i j => get op [j; i]) (combine phs (combine pr dims))) in *.
  rewrite (scalar_ext (shape a) (get b') (fun n => - C_i * H (get a') n) (get a) (get a)) by (auto; intros; apply Gb'; rewrite SA; assumption).
  rewrite (scalar_ext (shape a) (get a') (get a') (get b) (fun n => - C_i * H (get a) n)) by auto.
  rewrite scalar_scal_l, scalar_scal_r. unfold H.
  assert (Th : hermitian_matrix d (fun i j => get h [j; i])) by (intros i j Hi Hj; exact (Yh j i Hj Hi)). assert (To : hermitian_matrix d (fun i j => get op [j; i])) by (intros i j Hi Hj; exact (Yo j i Hj Hi)).
  rewrite (boson_hermitian (shape a) d s _ _ _ (get a') (get a) Hs Ds F Th To).
  replace (rconj (- C_i)) with C_i by (apply Ceq; cbn; ring). ring.
Qed.
Print Assumptions C73_wfn_norm.

(** [do_l_list] on |psi><phi| with real matrices is |psi'><phi| + |psi><phi'|, psi' and phi' from [wfn_h_list]. *)
Theorem C73_do :
  forall (h op psi phi rho : arr C_star) d s ns pr dims phs,
    wf psi -> wf phi -> wf rho -> shape psi = ns -> shape phi = ns -> shape rho = ns ++ ns ->
    (s < length ns)%nat -> nth s ns 0%nat = d -> shape h = [d; d] -> shape op = [d; d] ->
    real_matrix d (fun i j => get h [i; j]) -> real_matrix d (fun i j => get op [i; j]) ->
    modes_fit s ns (combine phs (combine pr dims)) ->
    (forall x y, in_range x ns -> in_range y ns -> get rho (x ++ y) = get psi x * rconj (get phi y)) ->
    exists lw psi' phi' l b,
      wfn_h_list h op pr dims s phs = Ok lw /\ apply_terms lw psi = Ok psi' /\ apply_terms lw phi = Ok phi' /\
      do_l_list h op pr dims s (length ns + s)%nat phs (map (Nat.add (length ns)) phs) = Ok l /\ apply_terms l rho = Ok b /\ wf b /\ shape b = shape rho /\
      forall x y, in_range x ns -> in_range y ns ->
        get b (x ++ y) = get psi' x * rconj (get phi y) + get psi x * rconj (get phi' y).
Proof.
  intros h op psi phi rho d s ns pr dims phs W1 W2 W3 S1 S2 S3 Hs Ds Sh So Rh Ro F E.
  destruct (C73_wfn_transposed h op psi d s pr dims phs W1) as (lw & psi' & El & E1 & _ & _ & G1); try (rewrite S1; assumption); try assumption.
  destruct (C73_wfn_transposed h op phi d s pr dims phs W2) as (lw2 & phi' & El2 & E2 & _ & _ & G2); try (rewrite S2; assumption); try assumption.
  rewrite El in El2. injection El2 as <-.
  destruct (do_value h op pr dims phs d s ns Hs Ds Sh So F rho (get psi) (fun y => rconj (get phi y)) W3 S3 E) as (l & b & Elb & Eb & Wb & Sb & Gb).
  exists lw, psi', phi', l, b. do 7 (split; [assumption|]). intros x y Hx Hy. rewrite Gb, G1, G2 by (rewrite ?S1, ?S2; assumption).
  rewrite rconj_mul, boson_conj. replace (rconj (- C_i)) with C_i by (apply Ceq; cbn; ring).
  rewrite (spin_boson_ext ns d s (fun i j => rconj (get h [j; i])) (trm h) (fun i j => rconj (get op [j; i])) (trm op) _ (fun m => rconj (get phi m)) (fun m => rconj (get phi m)) y); auto.
  - unfold trm. ring.
  - intros i j Hi Hj. apply Rh; auto.
  - intros i j Hi Hj. apply Ro; auto.
Qed.
Print Assumptions C73_do.

(** With a Hermitian matrix that is not real it is not, already without oscillators. *)
Theorem C73_do_hermitian_refuted :
  exists (h op psi rho psi' b : arr C_star) lw l,
    wf psi /\ shape psi = [2%nat] /\ wf rho /\ shape rho = [2%nat; 2%nat] /\ shape h = [2%nat; 2%nat] /\ shape op = [2%nat; 2%nat] /\
    hermitian_matrix 2%nat (fun i j => get h [i; j]) /\ real_matrix 2%nat (fun i j => get op [i; j]) /\
    (forall x y, in_range x [2%nat] -> in_range y [2%nat] -> get rho (x ++ y) = get psi x * rconj (get psi y)) /\
    wfn_h_list h op [] [] 0%nat [] = Ok lw /\ apply_terms lw psi = Ok psi' /\ do_l_list h op [] [] 0%nat 1%nat [] [] = Ok l /\ apply_terms l rho = Ok b /\
    get b ([0%nat] ++ [1%nat]) <> get psi' [0%nat] * rconj (get psi [1%nat]) + get psi [0%nat] * rconj (get psi' [1%nat]).
Proof.
  set (h := mkArr [2%nat; 2%nat] [r0; - C_i; C_i; r0]). set (op := mkArr [2%nat; 2%nat] [r0; r0; r0; r0] : arr C_star). set (psi := mkArr [2%nat] [r1; r0] : arr C_star). set (rho := mkArr [2%nat; 2%nat] [r1; r0; r0; r0] : arr C_star).
  destruct (wfn_ok h op 2%nat 0%nat psi eq_refl ltac:(cbn; lia) eq_refl eq_refl eq_refl [] [] [] (Forall_nil _)) as (lw & psi' & El & E1 & _ & _ & G1).
  assert (Q : forall x y, in_range x [2%nat] -> in_range y [2%nat] -> get rho (x ++ y) = get psi x * rconj (get psi y)).
  { intros x y Hx Hy. inversion Hx as [|i ? ? ? Hi N]; subst. inversion N; subst. inversion Hy as [|j ? ? ? Hj N']; subst. inversion N'; subst. destruct i as [|[|i]], j as [|[|j]]; try lia; apply Ceq; cbn; ring. }
  destruct (do_value h op [] [] [] 2%nat 0%nat [2%nat] ltac:(cbn; lia) eq_refl eq_refl eq_refl (Forall_nil _) rho (get psi) (fun y => rconj (get psi y)) eq_refl eq_refl Q) as (l & b & Elb & Eb & Wb & Sb & Gb).
  exists h, op, psi, rho, psi', b, lw, l. repeat (match goal with |- _ /\ _ => split end); try assumption; try reflexivity.
  - intros [|[|i]] [|[|j]] Hi Hj; try lia; apply Ceq; cbn; ring.
  - intros [|[|i]] [|[|j]] Hi Hj; try lia; apply Ceq; cbn; ring.
  - assert (I0 : in_range [0%nat] [2%nat]) by (repeat constructor). assert (I1 : in_range [1%nat] [2%nat]) by (repeat constructor).
    rewrite (Gb [0%nat] [1%nat] I0 I1), (G1 [0%nat] I0), (G1 [1%nat] I1). intros H. apply (f_equal fst) in H. unfold trm, h, op in H. cbn in H. lra.
Qed.
Print Assumptions C73_do_hermitian_refuted.

(** [a] is an extended density with tiers up to [dims] for a system of dimension [d]. *)
Local Notation extended dims d a := (wf a /\ shape a = dims ++ [d; d]).

(** The numbers of a bath: those kept in a correlation object, or none *)
Definition bath_lists (bath : option correlation) (c cc der : list C_star) : Prop :=
  match bath with None => c = [] /\ cc = [] /\ der = [] | Some b => c_coeff b = Some c /\ c_conj_coeff b = Some cc /\ c_derivative b = Some der end.

Lemma bcf_lists pr bath beta c cc der : bath_lists bath c cc der -> exists f cs ccs ders,
  generate_BCF pr bath beta = Ok (mkCorr (Some (Z.of_nat (2 * length pr + length c))) beta (Some cs) (Some ccs) (Some ders)) /\
  f = temp_factor beta /\
  cs = flat_map (fun p => [RtoC (snd p ^ 2 / 2 * (f (fst p) + 1)); RtoC (snd p ^ 2 / 2 * (f (fst p) - 1))]) pr ++ c /\
  ccs = flat_map (fun p => [RtoC (snd p ^ 2 / 2 * (f (fst p) - 1)); RtoC (snd p ^ 2 / 2 * (f (fst p) + 1))]) pr ++ cc /\
  ders = flat_map (fun p => [forward p; backward p]) pr ++ der.
Proof.
  intros H. do 4 eexists. split; [|repeat split; reflexivity]. unfold generate_BCF.
  assert (E : (match bath with None => Ok ([], [], []) | Some b => let! c := as_list (c_coeff b) in let! cc := as_list (c_conj_coeff b) in let! d := as_list (c_derivative b) in Ok (c, cc, d) end) = Ok (c, cc, der)).
  { destruct bath as [b|]; cbn [bath_lists] in H; destruct H as (-> & -> & ->); reflexivity. }
  rewrite E. cbn [bind]. do 3 f_equal. rewrite app_length. clear. f_equal. f_equal. induction pr as [|p pr IH]; [reflexivity|]. cbn [flat_map app length]. lia.
Qed.

(** [heom_h_list] writes the hierarchy whose bath is made of one pair of exponentials for every oscillator, occupied
    [1 / (exp(beta w) - 1)], followed by those of the correlation object; the matrices on the left are transposed. *)
Theorem C73_heom :
  forall (h op : arr C_star) d pr dims bath bath_dims beta scale c cc der,
    let ns := flat_map (fun n => [n; n]) dims ++ bath_dims in
    shape h = [d; d] -> shape op = [d; d] -> length dims = length pr -> bath_lists bath c cc der ->
    length c = length bath_dims -> length cc = length bath_dims -> length der = length bath_dims ->
    (forall b w g, beta = Some b -> In (w, g) pr -> (b * w <> 0)%R) ->
    exists terms, heom_h_list h op pr dims bath bath_dims (length ns) (length ns + 1)%nat (seq 0 (length ns)) beta scale = Ok terms /\
    forall a, extended ns d a ->
    exists b, apply_terms terms a = Ok b /\ extended ns d b /\
    forall n i j, in_range n ns -> (i < d)%nat -> (j < d)%nat ->
      get b (n ++ [i; j]) =
      scaled_rhs C_i (fun n => RtoC (sqrt (INR n))) (RtoC scale) (RtoC (/ scale)) d (length ns) (tr (mat h)) (mat h) (tr (mat op)) (mat op)
        (fun k => - exponentials pr forward backward der k) (exponentials pr (emission beta) (absorption beta) c) (exponentials pr (absorption beta) (emission beta) cc)
        (tiers ns a) n i j.
Proof.
  intros h op d pr dims bath bdims beta scale c cc der ns Sh So Ld Hb Lc Lcc Lder Hw.
  destruct (bcf_lists pr bath beta c cc der Hb) as (f & cs & ccs & ders & EB & Ef & Ecs & Eccs & Eders).
  assert (Ln : length ns = (2 * length pr + length bdims)%nat). { unfold ns. rewrite app_length, <- Ld. f_equal. clear. induction dims as [|x dims IH]; [reflexivity|]. cbn [flat_map app length]. lia. }
  assert (FL : forall u v : R * R -> C_star, length (flat_map (fun p => [u p; v p]) pr) = (2 * length pr)%nat) by (intros; clear; induction pr as [|x q IH]; [reflexivity|]; cbn [flat_map app length]; lia).
  assert (L1 : length ders = length ns) by (rewrite Eders, app_length, FL; lia).
  assert (L2 : length cs = length ns) by (rewrite Ecs, app_length, FL; lia).
  assert (L3 : length ccs = length ns) by (rewrite Eccs, app_length, FL; lia).
  assert (S0 : rsq 0 = r0) by (unfold rsq; cbn [INR]; rewrite sqrt_0; reflexivity).
  destruct (scaled_ok C_star C_i rsq ns d h op ders cs ccs (RtoC scale) (RtoC (/ scale)) Sh So L1 L2 L3 S0) as (terms & Et & H).
  exists terms. split.
  - unfold heom_h_list. rewrite EB. cbn [bind c_kmax c_coeff c_conj_coeff c_derivative]. fold ns. rewrite Nat2Z.id. unfold init, k_max. rewrite Ln, Lc, Nat.eqb_refl. cbn [negb]. unfold ndim. rewrite So, Sh. cbn [length Nat.eqb negb].
    destruct (list_eq_dec Nat.eq_dec [d; d] [d; d]) as [_|N]; [|congruence]. cbn [bind]. rewrite <- Ln, h_list_axes. exact Et.
  - intros a Ra. destruct (H a Ra) as (b & Eb & Rb & Gb). exists b. split; [exact Eb|]. split; [exact Rb|]. intros n i j Hn Hi Hj. rewrite Gb by assumption.
    assert (Occ : forall p, In p pr -> f (fst p) = (2 * occupation beta (fst p) + 1)%R). { intros (w, g) Hp. rewrite Ef. cbn [fst]. apply factor_occ. intros b0 E0. exact (Hw b0 w g E0 Hp). }
    assert (FE : forall u v u' v' : R * R -> C_star, (forall p, In p pr -> u p = u' p /\ v p = v' p) -> flat_map (fun p => [u p; v p]) pr = flat_map (fun p => [u' p; v' p]) pr).
    { clear. intros u v u' v' Q. induction pr as [|p pr IH]; [reflexivity|]. cbn [flat_map app]. destruct (Q p (or_introl eq_refl)) as (-> & ->). rewrite IH; [reflexivity|]. intros q Hq. apply Q. right. exact Hq. }
    apply scaled_rhs_coefs; intros k Hk.
    + rewrite Eders, flat_pairs. reflexivity.
    + rewrite Ecs, (FE _ _ (emission beta) (absorption beta)), flat_pairs; [reflexivity|]. intros p Hp. rewrite (Occ p Hp). unfold emission, absorption. split; f_equal; field.
    + rewrite Eccs, (FE _ _ (absorption beta) (emission beta)), flat_pairs; [reflexivity|]. intros p Hp. rewrite (Occ p Hp). unfold emission, absorption. split; f_equal; field.
Qed.
Print Assumptions C73_heom.

(** [heom_h_list2] is the case of scale 1. *)
Theorem C73_heom2 :
  forall (h op : arr C_star) d pr dims bath bath_dims beta c cc der,
    let ns := flat_map (fun n => [n; n]) dims ++ bath_dims in
    shape h = [d; d] -> shape op = [d; d] -> length dims = length pr -> bath_lists bath c cc der ->
    length c = length bath_dims -> length cc = length bath_dims -> length der = length bath_dims ->
    (forall b w g, beta = Some b -> In (w, g) pr -> (b * w <> 0)%R) ->
    exists terms, heom_h_list2 h op pr dims bath bath_dims (length ns) (length ns + 1)%nat (seq 0 (length ns)) beta = Ok terms /\
    forall a, extended ns d a ->
    exists b, apply_terms terms a = Ok b /\ extended ns d b /\
    forall n i j, in_range n ns -> (i < d)%nat -> (j < d)%nat ->
      get b (n ++ [i; j]) =
      scaled_rhs C_i (fun n => RtoC (sqrt (INR n))) r1 r1 d (length ns) (tr (mat h)) (mat h) (tr (mat op)) (mat op)
        (fun k => - exponentials pr forward backward der k) (exponentials pr (emission beta) (absorption beta) c) (exponentials pr (absorption beta) (emission beta) cc)
        (tiers ns a) n i j.
Proof.
  intros h op d pr dims bath bdims beta c cc der ns Sh So Ld Hb Lc Lcc Lder Hw.
  destruct (C73_heom h op d pr dims bath bdims beta 1%R c cc der Sh So Ld Hb Lc Lcc Lder Hw) as (terms & Et & H). rewrite Rinv_1 in H. exists terms. split; [exact Et|exact H].
Qed.
Print Assumptions C73_heom2.

(** Lists of dimensions and exponentials of different lengths are refused. *)
Theorem C73_heom_lengths :
  forall L (h op : arr C_star) pr dims bath bath_dims (sys_i sys_j : L) idx beta scale c cc der,
    bath_lists bath c cc der -> (2 * length dims + length bath_dims <> 2 * length pr + length c)%nat ->
    heom_h_list h op pr dims bath bath_dims sys_i sys_j idx beta scale = Raise AssertionError.
Proof.
  intros L h op pr dims bath bdims si sj idx beta scale c cc der Hb N. destruct (bcf_lists pr bath beta c cc der Hb) as (f & cs & ccs & ders & EB & _).
  unfold heom_h_list. rewrite EB. cbn [bind c_kmax c_coeff c_conj_coeff c_derivative]. rewrite Nat2Z.id. unfold init, k_max.
  replace (length (flat_map (fun d => [d; d]) dims ++ bdims)) with (2 * length dims + length bdims)%nat by (rewrite app_length; f_equal; clear; induction dims as [|x q IH]; [reflexivity|]; cbn [flat_map app length]; lia).
  destruct (Nat.eqb_spec (2 * length dims + length bdims) (2 * length pr + length c)) as [E|_]; [contradiction|]. reflexivity.
Qed.
Print Assumptions C73_heom_lengths.

(** Fewer leaves than exponentials are an error: so is the default, no leaves, as soon as there is one exponential. *)
Theorem C73_heom_indices :
  forall L (h op : arr C_star) d pr dims bath bath_dims (sys_i sys_j : L) idx beta scale c cc der,
    shape h = [d; d] -> shape op = [d; d] -> bath_lists bath c cc der -> length dims = length pr ->
    length c = length bath_dims -> length cc = length bath_dims -> length der = length bath_dims ->
    (length idx < 2 * length pr + length c)%nat ->
    heom_h_list h op pr dims bath bath_dims sys_i sys_j idx beta scale = Raise IndexError.
Proof.
  intros L h op d pr dims bath bdims si sj idx beta scale c cc der Sh So Hb Ld Lc Lcc Lder Hi.
  destruct (bcf_lists pr bath beta c cc der Hb) as (f & cs & ccs & ders & EB & Ef & Ecs & Eccs & Eders).
  unfold heom_h_list. rewrite EB. cbn [bind c_kmax c_coeff c_conj_coeff c_derivative]. set (ns := flat_map (fun d => [d; d]) dims ++ bdims).
  assert (Ln : length ns = (2 * length pr + length bdims)%nat). { unfold ns. rewrite app_length, <- Ld. f_equal. clear. induction dims as [|x dims IH]; [reflexivity|]. cbn [flat_map app length]. lia. }
  assert (FL : forall u v : R * R -> C_star, length (flat_map (fun p => [u p; v p]) pr) = (2 * length pr)%nat) by (intros; clear; induction pr as [|x q IH]; [reflexivity|]; cbn [flat_map app length]; lia).
  assert (L1 : length ders = length ns) by (rewrite Eders, app_length, FL; lia).
  assert (L2 : length cs = length ns) by (rewrite Ecs, app_length, FL; lia).
  assert (L3 : length ccs = length ns) by (rewrite Eccs, app_length, FL; lia).
  assert (S0 : rsq 0 = r0) by (unfold rsq; cbn [INR]; rewrite sqrt_0; reflexivity).
  destruct (scaled_ok C_star C_i rsq ns d h op ders cs ccs (RtoC scale) (RtoC (/ scale)) Sh So L1 L2 L3 S0) as (terms & Et & _).
  rewrite Nat2Z.id. unfold init, k_max. rewrite Ln, Lc, Nat.eqb_refl. cbn [negb]. unfold ndim. rewrite So, Sh. cbn [length Nat.eqb negb].
  destruct (list_eq_dec Nat.eq_dec [d; d] [d; d]) as [_|N]; [|congruence]. cbn [bind]. unfold h_list. rewrite Et. cbn [bind].
  unfold diff3 in Et. destruct (map_res _ _) as [ls|] in Et; [|discriminate Et]. cbn [bind app] in Et. injection Et as <-. unfold k_max.
  assert (I : item (idx ++ [si; sj]) (length ns + 1) = Raise IndexError). { unfold item. rewrite (proj2 (nth_error_None _ _)); [reflexivity|]. rewrite app_length. cbn [length]. lia. }
  cbn [map_res fst snd]. rewrite I. cbn [bind]. destruct (item (idx ++ [si; sj]) (length ns)) as [q|e] eqn:Eq; [reflexivity|]. unfold item in Eq. destruct (nth_error _ _) in Eq; [discriminate Eq|]. injection Eq as <-. reflexivity.
Qed.
Print Assumptions C73_heom_indices.

(** ** Concrete cases: a spin, its axis first, and one oscillator of frequency 1 and coupling 2 with two levels *)
Definition ex_z : arr C_star := mkArr [2%nat; 2%nat] [r1; r0; r0; - r1].
Definition ex_x : arr C_star := mkArr [2%nat; 2%nat] [r0; r1; r1; r0].
Definition ex_y : arr C_star := mkArr [2%nat; 2%nat] [r0; - C_i; C_i; r0].
Definition ex_state : arr C_star := mkArr [2%nat; 2%nat] [r1; r0; r0; r0].
Definition ex_pr : list (R * R) := [(1, 2)%R].
Definition ex_modes : list (nat * ((R * R) * nat)) := combine [1%nat] (combine ex_pr [2%nat]).
Lemma ex_fit : modes_fit 0 [2%nat; 2%nat] ex_modes.
Proof. repeat constructor; cbn; lia. Qed.
Ltac entries := intros [|[|i]] [|[|j]] Hi Hj; try lia; apply Ceq; cbn; ring.

(** From the ground state the coupling leads to the flipped spin with one quantum, at rate -2i. *)
Example ex_wfn : exists l b, wfn_h_list ex_z ex_x ex_pr [2%nat] 0%nat [1%nat] = Ok l /\ apply_terms l ex_state = Ok b /\
  get b [1; 1]%nat = - C_i * RtoC 2 /\ get b [0; 0]%nat = - C_i * RtoC (1 + 1 / 2) /\ get b [0; 1]%nat = r0.
Proof.
  destruct (C73_wfn ex_z ex_x ex_state 2 0 ex_pr [2%nat] [1%nat] eq_refl ltac:(cbn; lia) eq_refl eq_refl eq_refl ltac:(entries) ltac:(entries) ex_fit) as (l & b & El & Eb & _ & _ & Gb).
  exists l, b. split; [exact El|]. split; [exact Eb|]. rewrite !Gb by (repeat constructor; lia). repeat split; apply Ceq; cbn; rewrite ?sqrt_1; field.
Qed.
Example ex_norm : exists l b b', wfn_h_list ex_y ex_x ex_pr [2%nat] 0%nat [1%nat] = Ok l /\ apply_terms l ex_state = Ok b /\ apply_terms l ex_state = Ok b' /\
  scalar [2%nat; 2%nat] (get b') (get ex_state) + scalar [2%nat; 2%nat] (get ex_state) (get b) = r0.
Proof. apply (C73_wfn_norm ex_y ex_x ex_state ex_state 2 0 ex_pr [2%nat] [1%nat]); try reflexivity; try exact ex_fit; try entries. cbn; lia. Qed.
Definition ex_density : arr C_star := build [2; 2; 2; 2]%nat (fun n => get ex_state (firstn 2 n) * rconj (get ex_state (skipn 2 n))).
Example ex_do : exists lw psi' phi' l b,
      wfn_h_list ex_z ex_x ex_pr [2%nat] 0%nat [1%nat] = Ok lw /\ apply_terms lw ex_state = Ok psi' /\ apply_terms lw ex_state = Ok phi' /\
      do_l_list ex_z ex_x ex_pr [2%nat] 0%nat 2%nat [1%nat] [3%nat] = Ok l /\ apply_terms l ex_density = Ok b /\ wf b /\ shape b = shape ex_density /\
      forall x y, in_range x [2; 2]%nat -> in_range y [2; 2]%nat ->
        get b (x ++ y) = get psi' x * rconj (get ex_state y) + get ex_state x * rconj (get phi' y).
Proof.
  apply (C73_do ex_z ex_x ex_state ex_state ex_density 2 0 [2; 2]%nat ex_pr [2%nat] [1%nat]); try reflexivity; try exact ex_fit; try entries.
  - cbn; lia.
  - intros x y Hx Hy. unfold ex_density. assert (Ix : length x = 2%nat) by (apply in_range_len in Hx; exact Hx).
    rewrite get_build by (apply (in_range_app x y [2; 2]%nat [2; 2]%nat); assumption). rewrite <- Ix, firstn_app, skipn_app, Nat.sub_diag, firstn_all, skipn_all, app_nil_r. reflexivity.
Qed.
(** Two tiers for the oscillator at inverse temperature 1 *)
Example ex_heom : exists terms b, heom_h_list ex_z ex_x ex_pr [2%nat] None [] 2%nat 3%nat [0; 1]%nat (Some 1%R) 3 = Ok terms /\
  apply_terms terms (build [2; 2; 2; 2]%nat (fun n => if list_eq_dec Nat.eq_dec n [0; 0; 0; 0]%nat then r1 else r0)) = Ok b /\
  get b [1; 0; 1; 0]%nat = - C_i * RtoC (/ 3) * RtoC (4 * (1 / (exp 1 - 1) + 1)).
Proof.
  destruct (C73_heom ex_z ex_x 2 ex_pr [2%nat] None [] (Some 1%R) 3 [] [] []) as (terms & Et & H); try reflexivity; [repeat split; reflexivity| |].
  { intros b w g E [I|[]]. injection I as <- <-. injection E as <-. lra. }
  destruct (H (build [2; 2; 2; 2]%nat (fun n => if list_eq_dec Nat.eq_dec n [0; 0; 0; 0]%nat then r1 else r0))) as (b & Eb & _ & Gb); [split; [apply wf_build|reflexivity]|].
  exists terms, b. split; [exact Et|]. split; [exact Eb|]. change [1; 0; 1; 0]%nat with ([1; 0]%nat ++ [1; 0]%nat). rewrite Gb by (repeat constructor; lia).
  unfold emission, occupation, absorption. pose proof (exp_pos 1). assert (exp 1 - 1 <> 0)%R by (intros Q; pose proof (exp_ineq1 1 ltac:(lra)); lra).
  apply Ceq; cbn; rewrite ?sqrt_1, ?sqrt_0, ?Rmult_1_l; field; assumption.
Qed.
Example ex_default : heom_h_list ex_z ex_x ex_pr [2%nat] None [] 2%nat 3%nat [] (Some 1%R) 3 = Raise IndexError /\
  heom_h_list ex_z ex_x [] [] None [] 2%nat 3%nat [] (Some 1%R) 3 = Ok [ [(2%nat, arr_scale (- C_i) ex_z)]; [(3%nat, arr_scale C_i ex_z)] ].
Proof. split; [|reflexivity]. apply (C73_heom_indices nat ex_z ex_x 2 ex_pr [2%nat] None [] _ _ [] _ _ [] [] []); try reflexivity; [repeat split; reflexivity|cbn; lia]. Qed.
Example ex_lengths : heom_h_list ex_z ex_x ex_pr [] None [] 2%nat 3%nat [0; 1]%nat (Some 1%R) 3 = Raise AssertionError.
Proof. apply (C73_heom_lengths nat _ _ _ _ _ _ _ _ _ _ _ [] [] []); [repeat split; reflexivity|cbn; lia]. Qed.
