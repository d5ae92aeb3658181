(** Products and norms of MCTDH vectors, the matrix of the Hamiltonian of PO_DVR. *)
From Coq Require Import List Arith ZArith Bool Lia Ring Reals Lra.
From Verif Require Import Py Alg ListX NdArray_Model NdArray_Proof Cplx PoDvr_Spec PoDvr_Model PoDvr_Proof Mctdh_Model Mctdh_Spec Kron_Proof Mctdh_Proof Mctdh_Prop
  March_Spec March_Model MarchLin_Proof March_Proof.
Import ListNotations.
Local Open Scope nat_scope.
Local Open Scope list_scope.
Add Ring Cr3 : (r_theory C_star).

(** ** The product of two vectors *)
Lemma reshape_map (f : C_star -> C_star) l sh (a : carr) : reshape (mkArr [length l] l) sh = Ok a -> reshape (mkArr [length (map f l)] (map f l)) sh = Ok (mkArr (shape a) (map f (data a))).
Proof.
  unfold reshape, size. intros E. change (data (mkArr [length l] l)) with l in E. change (data (mkArr [length (map f l)] (map f l))) with (map f l). replace (length (map f l)) with (length l) by (symmetry; apply map_length).
  destruct (prod sh =? length l); [|discriminate]. assert (X : mkArr sh l = a) by congruence. rewrite <- X. reflexivity.
Qed.
Lemma sub_map (f : C_star -> C_star) shapes i vec a : get_sub_vec shapes i vec = Ok a -> get_sub_vec shapes i (map f vec) = Ok (mkArr (shape a) (map f (data a))).
Proof.
  unfold get_sub_vec. cbv zeta. destruct (nth_error shapes _) as [sh|]; [|discriminate]. intros E. rewrite skipn_map, firstn_map. now apply reshape_map.
Qed.
Lemma mdot_value sl (Cs : list carr) A vec {env} (e : env) : pieces sl Cs A vec ->
  auto_value (fun _ => mctdh_dot (all_shapes sl)) e vec = Ok (sumL (indices (map snd sl)) (fun m => rmul (get A m) (get A m))).
Proof.
  intros Pc. destruct (C71_sub_vectors sl Cs A vec Pc) as (_ & _ & E). destruct Pc as (_ & W & S_ & _).
  assert (D : forall x y, In x [v_re; v_im] -> In y [v_re; v_im] -> mctdh_dot (all_shapes sl) (x vec) (y vec) = vdot (x (data A)) (y (data A))).
  { intros x y Hx Hy. assert (G : forall z, In z [v_re; v_im] -> exists sh, get_sub_vec (all_shapes sl) (-1) (z vec) = Ok (mkArr sh (z (data A)))).
    { intros z [<-|[<-|[]]]; exists (shape A); exact (sub_map _ _ _ _ _ E). }
    destruct (G x Hx) as (s1 & E1), (G y Hy) as (s2 & E2). unfold mctdh_dot. rewrite E1. cbn [bind]. rewrite E2. reflexivity. }
  transitivity (auto_value (fun _ : env => vdot) e (data A)); [unfold auto_value; now rewrite !D by (cbn; auto)|]. rewrite value_ok. f_equal. replace (length (data A)) with (prod (map snd sl)) by (unfold wf in W; congruence).
  rewrite (sumn_ravel_gen C_star). apply sumL_ext. intros m. unfold get. now rewrite S_.
Qed.
Lemma conj_psi (Cs : list (@mat C_star)) ms A n : rconj (psi Cs ms A n) = psi (map (fun M a b => rconj (M a b)) Cs) ms (fun m => rconj (A m)) n.
Proof.
  unfold psi. rewrite rconj_sumL. apply sumL_ext. intros m. rewrite rconj_mul. f_equal. revert n m. induction Cs as [|M Ms IH]; intros [|a n] [|b m]; cbn [map kron]; try exact (rconj_1 C_star). rewrite rconj_mul. now rewrite IH.
Qed.
(** Without conjugation the sums over the state are those over the tensor when the columns are
    orthonormal without conjugation. *)
Lemma square_psi ns ms (Cs : list (@mat C_star)) (A : list nat -> C_star) : length Cs = length ns -> length ms = length ns ->
  (forall i p q, i < length ns -> p < nth i ms 0 -> q < nth i ms 0 -> sumn (nth i ns 0) (fun x => rmul (nth i Cs no_mat x p) (nth i Cs no_mat x q)) = delta p q) ->
  sumL (indices ns) (fun n => rmul (psi Cs ms A n) (psi Cs ms A n)) = sumL (indices ms) (fun m => rmul (A m) (A m)).
Proof.
  intros L1 L2 O. set (Ds := map (fun (M : @mat C_star) a b => rconj (M a b)) Cs). assert (LD : length Ds = length ns) by (unfold Ds; now rewrite map_length).
  transitivity (braket ns (psi Ds ms (fun m => rconj (A m))) (psi Cs ms A)).
  - unfold braket. apply sumL_ext. intros n. unfold Ds. rewrite <- conj_psi, rconj_invol. reflexivity.
  - rewrite braket_psi_psi by auto. transitivity (braket ms (fun m => rconj (A m)) A); [|unfold braket; apply sumL_ext; intros m; rewrite rconj_invol; reflexivity].
    unfold braket. apply sumL_ext_in. intros x Hx. apply in_indices in Hx. f_equal. rewrite <- (kron_delta ms x A Hx). apply (psi_ext ms ms); auto.
    + rewrite length_comps; rewrite ?map_length; auto.
    + apply map_length.
    + intros j a b Hj Ha Hb. rewrite L2 in Hj. rewrite (nth_comps _ _ _ _ _ no_mat no_mat) by (rewrite ?map_length; auto). unfold comp.
      rewrite (nth_indep (map adj Ds) no_mat (adj no_mat)) by (rewrite map_length; exact (eq_ind_r (fun z => j < z) Hj LD)). rewrite map_nth. unfold Ds. rewrite (nth_indep (map _ Cs) no_mat ((fun (M : @mat C_star) a b => rconj (M a b)) no_mat)) by (rewrite map_length; exact (eq_ind_r (fun z => j < z) Hj L1)). rewrite (map_nth (fun (M : @mat C_star) a b => rconj (M a b))).
      assert (X : forall (l : list nat) i, i < length l -> nth i (map (fun _ : nat => delta) l) (no_mat (K := C_star)) a b = delta a b) by (clear; induction l as [|y l IH]; intros [|i] Hi; cbn [length] in Hi; try lia; [reflexivity|apply (IH i); lia]).
      eapply eq_trans; [|symmetry; apply X; rewrite L2; exact Hj]. rewrite <- (O j a b Hj Ha Hb). apply sumn_ext. intros x0 _. unfold adj. now rewrite rconj_invol.
Qed.

(** ** The normalizer *)
Lemma size2_ge v : (0 <= size2 v)%R.
Proof. induction v as [|z v IH]; cbn [size2 fold_right]; [lra|]. fold (size2 v). pose proof (Rle_0_sqr (fst z)). pose proof (Rle_0_sqr (snd z)). unfold Cnorm2, Rsqr in *. lra. Qed.
Lemma size2_scale c (v : cvec) : size2 (vscale (RtoC c) v) = (c * c * size2 v)%R.
Proof. induction v as [|z v IH]; [cbn; ring|]. cbn [vscale map size2 fold_right] in *. unfold vscale, size2 in IH. rewrite IH. unfold Cnorm2. cbn. ring. Qed.
Lemma norm_eq v : vnorm v = sqrt (size2 v).
Proof.
  unfold vnorm. f_equal. induction v as [|z v IH]; [reflexivity|]. cbn [map size2 fold_right]. unfold size2 in IH. rewrite <- IH. reflexivity.
Qed.
Definition scaled (m : R) (a : carr) : carr := mkArr (shape a) (vscale (RtoC (sqrt (m / size2 (data a)))) (data a)).
Lemma scaled_size m a : (0 <= m)%R -> (0 < size2 (data a))%R -> size2 (data (scaled m a)) = m.
Proof. intros Hm Ha. cbn [data scaled]. rewrite size2_scale, sqrt_sqrt by (apply Rle_mult_inv_pos; auto). field. lra. Qed.
Lemma part_scaled m (v : cvec) : (0 < m)%R -> (0 < size2 v)%R -> (/ (vnorm v / sqrt m) = sqrt (m / size2 v))%R.
Proof. intros Hm Hv. rewrite norm_eq, sqrt_div_alt by auto. pose proof (sqrt_lt_R0 m Hm). pose proof (sqrt_lt_R0 _ Hv). field. lra. Qed.
Lemma mapM_nth {A B} (f : A -> res B) l l' : length l' = length l -> (forall i d d', i < length l -> f (nth i l d) = Ok (nth i l' d')) -> mapM f l = Ok l'.
Proof.
  revert l'. induction l as [|x l IH]; intros [|y l'] L H; try discriminate; [reflexivity|]. cbn [mapM]. rewrite (H 0 x y ltac:(cbn; lia) : f x = Ok y). cbn [bind]. rewrite (IH l'); [reflexivity|now injection L|]. intros i d d' Hi. apply (H (S i) d d'). cbn. lia.
Qed.
Definition scaled_all (sl : list (nat * nat)) (Cs : list carr) : list carr := map (fun p : nat * nat * carr => scaled (INR (snd (fst p))) (snd p)) (combine sl Cs).
Lemma nth_scaled (no : carr) : forall (sl : list (nat * nat)) (Cs : list carr) i, length Cs = length sl -> i < length sl -> nth i (scaled_all sl Cs) no = scaled (INR (snd (nth i sl (0, 0)))) (nth i Cs no).
Proof. induction sl as [|s sl IH]; intros [|C Cs] [|i] L Hi; try discriminate; cbn [length] in Hi; try lia; [reflexivity|]. apply (IH Cs i); [now injection L|lia]. Qed.
Lemma normalizer_ok sl (Cs : list carr) A vec : pieces sl Cs A vec -> Forall (fun s => 0 < snd s) sl -> Forall (fun C : carr => (0 < size2 (data C))%R) Cs -> (0 < size2 (data A))%R ->
  mctdh_normalizer sl vec = Ok (concat (map (@data C_star) (scaled_all sl Cs ++ [scaled 1 A]))) /\ pieces sl (scaled_all sl Cs) (scaled 1 A) (concat (map (@data C_star) (scaled_all sl Cs ++ [scaled 1 A]))).
Proof.
  intros Pc Fm FC HA. pose proof Pc as (F & W & E & V). assert (LC : length Cs = length sl) by (clear - F; induction F; cbn [length]; congruence). destruct (C71_sub_vectors sl Cs A vec Pc) as (G & GA & _). split.
  - unfold mctdh_normalizer. erewrite (mapM_nth _ _ (map (@data C_star) (scaled_all sl Cs ++ [scaled 1 A]))); [reflexivity| |].
    + rewrite map_length, app_length, seq_length. unfold scaled_all. rewrite map_length, combine_length, LC. cbn [length]. lia.
    + intros i d d' Hi. rewrite seq_length in Hi. rewrite seq_nth by auto. cbn [Nat.add]. unfold normal_part.
      set (no := mkArr [] [] : carr). assert (LA : length (scaled_all sl Cs) = length sl) by (unfold scaled_all; rewrite map_length, combine_length; lia).
      assert (N : nth i (map (@data C_star) (scaled_all sl Cs ++ [scaled 1 A])) d' = data (nth i (scaled_all sl Cs ++ [scaled 1 A]) no)).
      { rewrite <- (map_nth (@data C_star)). apply nth_indep. rewrite map_length, app_length, LA. cbn [length]. lia. }
      rewrite N. destruct (Nat.eq_dec i (length sl)) as [->|Ni].
      * rewrite GA. cbn [bind]. rewrite Nat.eqb_refl, app_nth2, LA, Nat.sub_diag by lia. cbn [nth]. cbn [scaled data]. rewrite part_scaled by (auto; lra). reflexivity.
      * rewrite G by lia. cbn [bind]. apply Nat.eqb_neq in Ni as Nb. rewrite Nb. rewrite app_nth1 by lia. rewrite nth_scaled by (auto; lia). cbn [scaled data].
        rewrite Forall_forall in Fm, FC. rewrite part_scaled; [reflexivity| |].
        -- apply lt_0_INR. apply Fm. apply nth_In. lia.
        -- apply FC. apply nth_In. lia.
  - split; [|split; [|split; [exact E|reflexivity]]].
    + clear - F. unfold scaled_all. induction F as [|s C sl Cs (WC & SC) F IH]; cbn [combine map]; constructor; auto. cbn [fst snd]. split; [|exact SC]. unfold wf, scaled. cbn [data shape]. now rewrite scale_len.
    + unfold wf, scaled. cbn [data shape]. rewrite scale_len. exact W.
Qed.
Lemma scaled_same m a : size2 (data a) = m -> (0 < m)%R -> scaled m a = a.
Proof. intros E H. unfold scaled. rewrite E. replace (m / m)%R with 1%R by (field; lra). rewrite sqrt_1. destruct a as (sh, d). cbn [shape data]. f_equal. unfold vscale. rewrite <- (map_id d) at 2. apply map_ext. intros z. change (RtoC 1) with (r1 : C_star). ring. Qed.

(** ** The matrix of the Hamiltonian of [PO_DVR] *)
Section PoMatrix.
Variables (sizes : list nat) (Hs : nat -> nat -> nat -> C_star) (d : option cvec).
Definition point (a : nat) : list nat := nth a (indices sizes) [].
Lemma point_ravel x : in_range x sizes -> point (ravel sizes x) = x.
Proof.
  intros R. unfold point. apply in_indices in R as I. destruct (In_nth _ _ [] I) as (k & Hk & Ek). assert (ravel sizes x = k); [|congruence].
  rewrite <- Ek. pose proof (map_ravel_indices sizes) as M. assert (Lk : length (indices sizes) = prod sizes) by (rewrite <- (map_length (ravel sizes)), M; apply seq_length). rewrite Lk in Hk.
  rewrite <- (map_nth (ravel sizes)), M. rewrite (nth_indep _ _ 0) by (rewrite seq_length; auto). now rewrite seq_nth.
Qed.
Lemma point_range a : a < prod sizes -> in_range (point a) sizes /\ ravel sizes (point a) = a.
Proof.
  intros H. pose proof (map_ravel_indices sizes) as M. assert (Lk : length (indices sizes) = prod sizes) by (rewrite <- (map_length (ravel sizes)), M; apply seq_length). split; [apply in_indices, nth_In; lia|].
  unfold point. rewrite <- (map_nth (ravel sizes)), M. rewrite (nth_indep _ _ 0) by (rewrite seq_length; auto). now rewrite seq_nth.
Qed.
Definition po_entry (a b : nat) : C_star :=
  radd (sumn (length sizes) (fun i => if list_eq_dec Nat.eq_dec (del i (point a)) (del i (point b)) then Hs i (nth i (point a) 0) (nth i (point b) 0) else r0))
    (if a =? b then match d with None => r0 | Some d => nth a d r0 end else r0).
Lemma po_entry_sym : (forall i j k, i < length sizes -> j < nth i sizes 0 -> k < nth i sizes 0 -> Hs i j k = Hs i k j) -> forall a b, a < prod sizes -> b < prod sizes -> po_entry a b = po_entry b a.
Proof.
  intros Sy a b Ha Hb. destruct (point_range a Ha) as (Ra & _), (point_range b Hb) as (Rb & _). unfold po_entry. f_equal.
  - apply sumn_ext. intros i Hi. destruct (list_eq_dec _ _ _) as [E|E], (list_eq_dec _ _ _) as [E'|E']; try (exfalso; auto; fail); auto. apply Sy; auto; eapply in_range_nth; eauto.
  - rewrite (Nat.eqb_sym b a). destruct (Nat.eqb_spec a b) as [->|]; auto.
Qed.
Lemma axis_sum i x (f : list nat -> C_star) : i < length sizes -> in_range x sizes ->
  sumL (indices sizes) (fun y => rmul (if list_eq_dec Nat.eq_dec (del i x) (del i y) then Hs i (nth i x 0) (nth i y 0) else r0) (f y)) = on_axis i (nth i sizes 0) (Hs i) f x.
Proof.
  intros Hi R. pose proof (in_range_len _ _ R) as L. assert (Ld : length (del i sizes) = length sizes - 1) by (apply length_del; auto). rewrite <- (ins_del i 0 sizes Hi) at 1. rewrite sum_indices_ins by lia. unfold on_axis. apply sumn_ext. intros k Hk.
  rewrite (sumL_single C_star (indices (del i sizes)) (del i x)).
  - assert (Lx : length (del i x) = length sizes - 1) by (rewrite length_del; lia). rewrite del_ins by lia. destruct (list_eq_dec _ _ _) as [_|N]; [|contradiction]. rewrite nth_ins_eq by lia. f_equal. f_equal. symmetry. apply upd_eq. lia.
  - apply NoDup_indices.
  - apply in_indices. apply in_range_del. exact R.
  - intros y Hy Ny. apply in_indices in Hy. apply in_range_len in Hy. rewrite del_ins by lia. destruct (list_eq_dec _ _ _) as [E|_]; [congruence|]. ring.
Qed.
End PoMatrix.
Lemma po_acts (hs : list (@op1 C_star)) Hs v : Forall (fun h => fst h <> 0) hs -> equal_tail (map fst hs) -> (forall i h, nth_error hs i = Some h -> acts (fst h) (fst h) (Hs i) (snd h)) ->
  (forall d, v = Some d -> length d = prod (map fst hs)) -> acts (prod (map fst hs)) (prod (map fst hs)) (po_entry (map fst hs) Hs v) (po_matvec hs v).
Proof.
  intros F T A D vec L. destruct (PoDvr_Proof.matvec_ok hs Hs v vec) as (w & Ew & Lw & Vw); auto; [intros d Ed; rewrite L; auto|]. exists w. split; [exact Ew|]. split; [exact Lw|]. intros a Ha. set (sizes := map fst hs) in *.
  destruct (point_range sizes a Ha) as (Ra & Ea). rewrite <- Ea at 1. rewrite Vw by auto. rewrite (sumn_ravel_gen C_star). unfold po_entry.
  rewrite (sumL_ext_in C_star _ _ (fun y => radd (sumn (length sizes) (fun i => rmul (if list_eq_dec Nat.eq_dec (del i (point sizes a)) (del i y) then Hs i (nth i (point sizes a) 0) (nth i y 0) else r0) (nth (ravel sizes y) vec r0)))
    (rmul (if a =? ravel sizes y then match v with None => r0 | Some d => nth a d r0 end else r0) (nth (ravel sizes y) vec r0)))).
  2: { intros y Hy. apply in_indices in Hy. rewrite point_ravel by auto. rewrite sumn_scal_r. ring. }
  rewrite sumL_add. f_equal.
  - unfold sumn at 2. rewrite sumL_swap. replace (length hs) with (length sizes) by (unfold sizes; apply map_length). apply sumn_ext. intros i Hi. rewrite (axis_sum sizes Hs i (point sizes a) (fun y => nth (ravel sizes y) vec r0)); auto.
  - rewrite (sumL_single C_star _ (point sizes a)).
    + rewrite Ea, Nat.eqb_refl. destruct v as [d|]; ring.
    + apply NoDup_indices.
    + now apply in_indices.
    + intros y Hy Ny. apply in_indices in Hy. destruct (Nat.eqb_spec a (ravel sizes y)) as [E|_]; [|ring]. exfalso. apply Ny. rewrite <- (point_ravel sizes y Hy). now rewrite <- E.
Qed.
