(** Property C86: [dense_h] of the model in sbm.py. *)
From Coq Require Import List Arith Bool ZArith Lia Ring Reals Lra.
From Verif Require Import Py Alg ListX Cplx NdArray_Model NdArray_Proof Contract_Model Phonon_Model Corr_Model Heom_Model Heom_Spec Heom_Proof HeomGrid_Spec HeomGrid_Proof Sbm_Model Sbm_Spec Sbm_Proof Sbm_Prop SbmDense_Model SbmDense_Spec SbmDense_Proof.
Import ListNotations.
Local Open Scope nat_scope.
Add Ring KrCd : (r_theory C_star).

(** [heom_args] is [heom_h_list] of the model, when the arguments are in the right places. *)
Theorem C86_same :
  forall (h op : arr C_star) pr ph_dims bath bath_dims L (sys_i sys_j : L) leaves beta scale,
    scale <> 0%R ->
    heom_args h op pr ph_dims bath bath_dims sys_i sys_j leaves (match beta with None => a_none | Some b => a_num b end) None (Some scale) =
    heom_h_list h op pr ph_dims bath bath_dims sys_i sys_j leaves beta scale.
Proof.
  intros h op pr pd bath bd L si sj lv beta s Hs. unfold heom_args, heom_h_list.
  assert (E : bcf pr bath (match beta with None => a_none | Some b => a_num b end) (L := L) = generate_BCF pr bath beta) by (destruct beta; reflexivity). rewrite E.
  destruct (generate_BCF pr bath beta) as [corr|e]; [|reflexivity]. cbn [bind]. change (flat_map (fun d => [d; d]) pd ++ bd) with (n_tiers pd bd).
  destruct (c_kmax corr) as [k|]; [|reflexivity]. destruct (c_coeff corr) as [c|]; [|reflexivity]. destruct (c_conj_coeff corr) as [cc|]; [|reflexivity]. destruct (c_derivative corr) as [der|]; [|reflexivity].
  destruct (init C_star (n_tiers pd bd) h op (Z.to_nat k)) as [u|e]; [|reflexivity]. cbn [bind]. destruct (Req_EM_T s 0) as [Z|_]; [contradiction|].
  destruct (length (n_tiers pd bd) =? 0) eqn:E0; [|reflexivity]. apply Nat.eqb_eq in E0. unfold h_list, diff3, k_max. rewrite E0. reflexivity.
Qed.
Print Assumptions C86_same.

(** With any oscillators the call fails: the list of leaves of the bath is taken for the temperature. *)
Theorem C86_oscillators :
  forall (h op : arr C_star) pr ph_dims bath bath_dims L eqb (sys_i sys_j : L) phs bath_indices beta f_type,
    pr <> [] -> dense_h h op pr ph_dims bath bath_dims eqb sys_i sys_j phs bath_indices beta f_type = Raise TypeError.
Proof.
  intros h op pr pd bath bd L eqb si sj phs bi beta ft N. destruct pr as [|p pr]; [contradiction|]. reflexivity.
Qed.
Print Assumptions C86_oscillators.

Section Calls.
Variables (h op : arr C_star) (d : nat) (dims : list nat) (bath : option correlation) (c cc der : list C_star).
Hypothesis Hh : shape h = [d; d].
Hypothesis Hop : shape op = [d; d].
Hypothesis Hb : bath_lists bath c cc der.
Hypothesis Lc : length c = length dims.
Hypothesis Lcc : length cc = length dims.
Hypothesis Lder : length der = length dims.
Lemma call_is L (si sj : L) phs bi beta f_type : heom_args h op [] [] bath dims si sj phs (a_leaves bi) beta f_type =
  (let terms s := h_list C_star C_i rsq dims h op der c cc (RtoC s) (RtoC (/ s)) si sj phs in
   if length dims =? 0 then terms 1%R else
   match beta, f_type with
   | Some _, _ => Raise TypeError
   | None, None => Raise TypeError
   | None, Some s => if Req_EM_T s 0 then Raise ZeroDivisionError else terms s
   end).
Proof.
  unfold heom_args, bcf, n_tiers. cbn [flat_map app map_res bind]. destruct (bcf_lists [] bath None c cc der Hb) as (f & cs & ccs & ders & EB & _ & Ecs & Eccs & Eders).
  rewrite EB. cbn [bind c_kmax c_coeff c_conj_coeff c_derivative]. cbn [flat_map app] in Ecs, Eccs, Eders. subst cs ccs ders.
  unfold init, k_max, ndim. rewrite Nat2Z.id. cbn [length Nat.mul Nat.add]. rewrite Lc, Nat.eqb_refl, Hop, Hh. cbn [negb length Nat.eqb].
  destruct (list_eq_dec Nat.eq_dec [d; d] [d; d]) as [_|N]; [|contradiction]. cbn [bind].
  destruct (length dims =? 0) eqn:E; [reflexivity|]. apply Nat.eqb_neq in E.
  assert (F : forall b e, diff_fails [] dims der c cc b e (A := list (list (L * arr C_star))) = Raise e).
  { intros b e. unfold diff_fails, n_tiers. cbn [flat_map app]. rewrite (item_nth c 0 r0), (item_nth cc 0 r0), (item_nth der 0 r0), (item_nth dims 0 0) by lia. cbn [bind]. destruct b; reflexivity. }
  destruct beta; [apply F|]. destruct f_type as [s|]; [|apply F]. destruct (Req_EM_T s 0); [apply F|reflexivity].
Qed.
End Calls.

(** Without oscillators, but with exponentials of a bath: a temperature is taken for the grids, and the call fails; so it does without [f_type], which becomes the scale, and
    with 0. *)
Theorem C86_bath :
  forall (h op : arr C_star) d dims bath c cc der L eqb (sys_i sys_j : L) phs bath_indices beta f_type,
    shape h = [d; d] -> shape op = [d; d] -> bath_lists bath c cc der -> 0 < length dims ->
    length c = length dims -> length cc = length dims -> length der = length dims ->
    (beta <> None -> dense_h h op [] [] bath dims eqb sys_i sys_j phs bath_indices beta f_type = Raise TypeError) /\
    (f_type = None -> dense_h h op [] [] bath dims eqb sys_i sys_j phs bath_indices beta f_type = Raise TypeError) /\
    (beta = None -> f_type = Some 0%R -> dense_h h op [] [] bath dims eqb sys_i sys_j phs bath_indices beta f_type = Raise ZeroDivisionError).
Proof.
  intros h op d dims bath c cc der L eqb si sj phs bi beta ft Hh Hop Hb Ld Lc Lcc Lder. unfold dense_h.
  rewrite (call_is h op d dims bath c cc der Hh Hop Hb Lc Lcc Lder). destruct (length dims =? 0) eqn:E; [apply Nat.eqb_eq in E; lia|].
  cbv zeta. split; [|split].
  - intros N. destruct beta; [reflexivity|contradiction].
  - intros ->. destruct beta; reflexivity.
  - intros -> ->. destruct (Req_EM_T 0 0); [reflexivity|contradiction].
Qed.
Print Assumptions C86_bath.

(** Otherwise there is a matrix.  Its action: the factors of every term, added up. *)
Theorem C86_sum :
  forall (h op : arr C_star) d dims bath c cc der L eqb (sys_i sys_j : L) phs bath_indices s,
    shape h = [d; d] -> shape op = [d; d] -> bath_lists bath c cc der ->
    length c = length dims -> length cc = length dims -> length der = length dims ->
    (forall x y, eqb x y = true <-> x = y) -> length phs = length dims ->
    NoDup ([sys_i; sys_j] ++ phs ++ match bath_indices with None => [] | Some l => l end) -> s <> 0%R ->
    exists D, dense_h h op [] [] bath dims eqb sys_i sys_j phs bath_indices None (Some s) = Ok D /\
    is_matrix D (prod ([d; d] ++ dims)) (prod ([d; d] ++ dims)) /\
    forall v x, in_range x ([d; d] ++ dims) ->
      applied ([d; d] ++ dims) (fun i j => get D [i; j]) v x =
      added_up d dims h op (fun n => RtoC (sqrt (INR n))) (fun k => nth k der r0) (fun k => nth k c r0) (fun k => nth k cc r0) (RtoC s) (RtoC (/ s)) v x.
Proof.
  intros h op d dims bath c cc der L eqb si sj phs bi s Hh Hop Hb Lc Lcc Lder He Lp ND Hs. unfold dense_h.
  rewrite (call_is h op d dims bath c cc der Hh Hop Hb Lc Lcc Lder). cbv zeta.
  assert (G : forall s, exists D, bind (h_list C_star C_i rsq dims h op der c cc (RtoC s) (RtoC (/ s)) si sj phs) (fun diff => embed_sum C_star eqb (shape h ++ n_tiers [] dims) ([si; sj] ++ phs ++ match bi with None => [] | Some l => l end) diff) = Ok D /\
    is_matrix D (prod ([d; d] ++ dims)) (prod ([d; d] ++ dims)) /\ forall v x, in_range x ([d; d] ++ dims) -> applied ([d; d] ++ dims) (fun i j => get D [i; j]) v x =
      added_up d dims h op (fun n => RtoC (sqrt (INR n))) (fun k => nth k der r0) (fun k => nth k c r0) (fun k => nth k cc r0) (RtoC s) (RtoC (/ s)) v x).
  { clear s Hs. intros s. destruct (h_list_named C_star d dims C_i rsq h op der c cc (RtoC s) (RtoC (/ s)) Hh Hop Lder Lc Lcc eqb He si sj phs (match bi with None => [] | Some l => l end) Lp ND) as (l & nm & _ & En & F & G & V).
    rewrite En. cbn [bind]. unfold n_tiers. cbn [flat_map]. change ([] ++ dims) with dims. rewrite Hh.
    destruct (embed_ok C_star eqb ([d; d] ++ dims) ([si; sj] ++ phs ++ match bi with None => [] | Some l => l end) nm _ F G) as (D & ED & MD & A). exists D. split; [exact ED|]. split; [exact MD|].
    intros v x Hx. rewrite A, V by exact Hx. reflexivity. }
  destruct (length dims =? 0) eqn:E.
  - destruct (G 1%R) as (D & ED & MD & A). exists D. split; [exact ED|]. split; [exact MD|]. intros v x Hx. rewrite A by exact Hx. unfold added_up. apply Nat.eqb_eq in E. rewrite E. reflexivity.
  - destruct (Req_EM_T s 0); [contradiction|]. apply G.
Qed.
Print Assumptions C86_sum.

(** Without a bath it is the generator of the isolated system, whatever the temperature and [f_type]. *)
Theorem C86_isolated :
  forall (h op : arr C_star) d L eqb (sys_i sys_j : L) bath_indices beta f_type,
    shape h = [d; d] -> shape op = [d; d] -> (forall x y, eqb x y = true <-> x = y) ->
    NoDup ([sys_i; sys_j] ++ match bath_indices with None => [] | Some l => l end) ->
    exists D, dense_h h op [] [] None [] eqb sys_i sys_j [] bath_indices beta f_type = Ok D /\ is_matrix D (d * d) (d * d) /\
    forall v i j, i < d -> j < d ->
      applied [d; d] (fun i j => get D [i; j]) v [i; j] =
      (- C_i * (sumn d (fun z => get h [z; i] * v [z; j]) - sumn d (fun z => v [i; z] * get h [z; j])))%S.
Proof.
  intros h op d L eqb si sj bi beta ft Hh Hop He ND.
  destruct (C86_sum h op d [] None [] [] [] L eqb si sj [] bi 1%R Hh Hop) as (D & ED & MD & A); auto; try (split; auto; fail); try lra.
  exists D. split; [|split].
  - rewrite <- ED. unfold dense_h. rewrite !(call_is h op d [] None [] [] [] Hh Hop); auto; split; auto.
  - cbn [app prod] in MD. rewrite Nat.mul_1_r in MD. exact MD.
  - intros v i j Hi Hj. cbn [app] in A. rewrite A by (apply in_range2; auto). unfold added_up, turning. cbn [length]. rewrite sumn_0.
    unfold along, flipped. cbn [nth].
    rewrite (sumn_ext C_star d (fun z => rmul (get h [z; j]) _) (fun z => v [i; z] * get h [z; j])%S) by (intros z Hz; change (upd 1 z [i; j]) with [i; z]; ring).
    change (fun z => (get h [z; i] * v (upd 0 z [i; j]))%S) with (fun z => (get h [z; i] * v [z; j])%S). ring.
Qed.
Print Assumptions C86_isolated.

(** Products became sums: a system of two states, no Hamiltonian, one exponential with one tier.  The generator is zero, the matrix is not. *)
Definition sigma_z : arr C_star := mkArr [2; 2] [r1; r0; r0; ropp r1].
Definition one_exp : correlation := mkCorr (Some 1%Z) None (Some [r1]) (Some [r1]) (Some [r1]).
Theorem C86_product_refuted :
  exists D terms, dense_h (zeros [2; 2]) sigma_z [] [] (Some one_exp) [1] Nat.eqb 1 2 [0] None None (Some 1%R) = Ok D /\
    heom_args (zeros [2; 2]) sigma_z [] [] (Some one_exp) [1] 1 2 [0] a_none None (Some 1%R) = Ok terms /\
    applied [2; 2; 1] (fun i j => get D [i; j]) (fun _ => r1) [0; 1; 0] = (- (1 + 1) * C_i)%S /\
    (forall a, wf a -> shape a = [1; 2; 2] -> exists b, apply_terms terms a = Ok b /\ forall n i j, in_range n [1] -> i < 2 -> j < 2 -> get b (n ++ [i; j]) = r0).
Proof.
  assert (HB : bath_lists (Some one_exp) [r1] [r1] [r1]) by (split; [reflexivity|split; reflexivity]).
  assert (ND : NoDup ([1; 2] ++ [0] ++ [])) by (repeat constructor; cbn; lia).
  destruct (C86_sum (zeros [2; 2]) sigma_z 2 [1] (Some one_exp) [r1] [r1] [r1] nat Nat.eqb 1 2 [0] None 1%R eq_refl eq_refl HB eq_refl eq_refl eq_refl Nat.eqb_eq eq_refl ND R1_neq_R0) as (D & ED & _ & A).
  destruct (C73_heom (zeros [2; 2]) sigma_z 2 [] [] (Some one_exp) [1] None 1%R [r1] [r1] [r1] eq_refl eq_refl eq_refl HB eq_refl eq_refl eq_refl) as (t & Et & Ht); [discriminate|].
  exists D, t. split; [exact ED|]. split; [|split].
  - rewrite <- Et. apply (C86_same (zeros [2; 2]) sigma_z [] [] (Some one_exp) [1] nat 1 2 [0] None 1%R R1_neq_R0).
  - cbn [app] in A. rewrite A by (repeat constructor). apply Ceq; lazy -[Rplus Rmult Ropp Rminus Rinv IZR sqrt]; rewrite ?sqrt_0; lra.
  - intros a Wa Sa. destruct (Ht a (conj Wa Sa)) as (b & Eb & _ & Gb). exists b. split; [exact Eb|]. intros n i j Hn Hi Hj. rewrite Gb by auto.
    assert (En : n = [0]). { inversion Hn as [|x y l l' Hx Hl]; subst. inversion Hl; subst. assert (x = 0) by lia. subst x. reflexivity. } subst n.
    assert (Z : forall x y, x < 2 -> y < 2 -> get (@zeros C_star [2; 2]) [x; y] = r0). { intros x y Hx Hy. unfold zeros. rewrite get_build by (apply in_range2; auto). reflexivity. }
    cbn [flat_map app length]. unfold scaled_rhs. rewrite !sumn_S, !sumn_0. change (more 0 [0]) with [1]. change (less 0 [0]) with [0]. change (occ [0] 0) with 0.
    assert (T : forall x y, tiers [1] a [1] x y = r0) by reflexivity.
    assert (A1 : lmul 2 (tr (mat (@zeros C_star [2; 2]))) (tiers [1] a [0]) i j = r0). { unfold lmul, tr, mat. apply sumL_zero_in. intros x Hx. apply in_seq in Hx. rewrite Z by lia. ring. }
    assert (A2 : rmult 2 (tiers [1] a [0]) (mat (@zeros C_star [2; 2])) i j = r0). { unfold rmult, mat. apply sumL_zero_in. intros x Hx. apply in_seq in Hx. rewrite Z by lia. ring. }
    assert (A3 : lmul 2 (tr (mat sigma_z)) (tiers [1] a [1]) i j = r0). { unfold lmul. apply sumL_zero_in. intros x Hx. rewrite T. ring. }
    assert (A4 : rmult 2 (tiers [1] a [1]) (mat sigma_z) i j = r0). { unfold rmult. apply sumL_zero_in. intros x Hx. rewrite T. ring. }
    rewrite A1, A2, A3, A4. change (INR 0) with 0%R. rewrite sqrt_0. change (RtoC 0) with (r0 : C_star). cbn [num]. ring.
Qed.
Print Assumptions C86_product_refuted.

Example C86_example_isolated : exists D, dense_h (mkArr [2; 2] [r0; r1; r1; r0]) sigma_z [] [] None [] Nat.eqb 5 7 [] None (Some 2%R) None = Ok D /\ is_matrix D 4 4 /\
  applied [2; 2] (fun i j => get D [i; j]) (fun x => if list_eq_dec Nat.eq_dec x [1; 1] then r1 else r0) [0; 1] = (- C_i)%S.
Proof.
  destruct (C86_isolated (mkArr [2; 2] [r0; r1; r1; r0]) sigma_z 2 nat Nat.eqb 5 7 None (Some 2%R) None eq_refl eq_refl Nat.eqb_eq) as (D & ED & MD & A); [repeat constructor; cbn; lia|].
  exists D. split; [exact ED|]. split; [exact MD|]. rewrite A by lia. apply Ceq; lazy -[Rplus Rmult Ropp Rminus Rinv IZR]; lra.
Qed.
Example C86_example_test_script : dense_h (zeros [2; 2]) sigma_z [] [] (Some one_exp) [1] Nat.eqb 1 2 [0] None (Some 2%R) (Some 0%R) = Raise TypeError.
Proof.
  refine (proj1 (C86_bath (zeros [2; 2]) sigma_z 2 [1] (Some one_exp) [r1] [r1] [r1] nat Nat.eqb 1 2 [0] None (Some 2%R) (Some 0%R) eq_refl eq_refl _ _ eq_refl eq_refl eq_refl) _).
  - split; [reflexivity|split; reflexivity].
  - cbn. lia.
  - discriminate.
Qed.

(** A leaf that is not among the indices stops the sum: with a ValueError if it comes first, and
    wherever it comes there is no result. *)
Theorem C86_missing (K : StarRing) L (eqb : L -> L -> bool) sh idx diff k (a : arr K) :
  (forall x, In x idx -> eqb x k = false) ->
  (forall fs, concat diff = (k, a) :: fs -> embed_sum K eqb sh idx diff = Raise ValueError) /\
  (In (k, a) (concat diff) -> forall m, embed_sum K eqb sh idx diff <> Ok m).
Proof.
  intros N. assert (E : leaf_index eqb k idx = Raise ValueError) by (induction idx as [|x l IH]; [reflexivity|]; cbn; rewrite (N x) by (now left); rewrite IH by (intros; apply N; now right); reflexivity).
  split.
  - intros fs H. unfold embed_sum. rewrite H. unfold reshape at 1. destruct (_ =? _); [|reflexivity]. cbn [bind add_factors]. rewrite E. reflexivity.
  - intros H m. unfold embed_sum. destruct (reshape _ _) as [ii|e]; [|discriminate]. cbn [bind].
    assert (Q : forall acc, exists e, add_factors K eqb idx ii acc (concat diff) = Raise e).
    { induction (concat diff) as [|(k', a') fs IH]; [destruct H|]. intros acc. cbn [add_factors]. destruct H as [H|H]; [injection H as -> ->; rewrite E; eexists; reflexivity|].
      destruct (leaf_index eqb k' idx) as [p|e]; [|eexists; reflexivity]. cbn [bind]. destruct (partial_product_arr _ _ _ _) as [cu|e]; [|eexists; reflexivity]. cbn [bind]. destruct (arr_add acc cu) as [ac|e]; [|eexists; reflexivity]. cbn [bind]. apply IH, H. }
    destruct (Q (zeros (sh ++ sh))) as (e & ->). discriminate.
Qed.
Print Assumptions C86_missing.
Example C86_missing_example : embed_sum Z_star Nat.eqb [2] [0] [[(1, @mkArr Z_star [2; 2] [1; 0; 0; 1]%Z)]] = Raise ValueError /\ (forall x, In x [0] -> Nat.eqb x 1 = false).
Proof. split; [reflexivity|]. intros x [<-|[]]. reflexivity. Qed.
