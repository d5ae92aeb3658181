(** Property C81: eigenstates of the one-dimensional problems, initial vectors, terms of the Hamiltonian. *)
From Coq Require Import List Arith ZArith Bool Lia Ring Reals Lra.
From Verif Require Import Py Alg ListX NdArray_Model NdArray_Proof Contract_Model Cplx PoDvr_Model PoDvr_Spec PoDvr_Proof Mctdh_Model Mctdh_Spec Kron_Proof Mctdh_Proof Start_Model Start_Spec Start_Proof.
From Verif Require Dvr_Model Dvr_Proof PoDvr_Prop.
From Verif Require Import Mctdh_Prop Mode_Proof.
Import ListNotations.
Local Open Scope nat_scope.
Local Open Scope list_scope.
Add Ring Cr2 : (r_theory C_star).

(** The Hamiltonian of a one-dimensional DVR is that of the potential set last, whatever has been
    solved before and between. *)
Theorem C81_stored_hamiltonian eigsh l d d' v n : kept d = None -> do_dvrs eigsh l d = Ok d' ->
  fold_left (fun v c => match c with SetPot w => Some w | Solve _ => v end) l (pot d) = Some v -> wf (kin d) -> shape (kin d) = [n; n] -> length (v (points d)) = n ->
  exists h, h_mat d' = Ok h /\ shape h = [n; n] /\ forall i j, i < n -> j < n -> get h [i; j] = radd (get (kin d) [i; j]) (rmul (delta i j) (nth i (v (points d)) r0)).
Proof.
  intros K0 E L Wk Sk Lv. assert (C : cached d) by (unfold cached; now rewrite K0). destruct (cached_calls eigsh l d d' C E) as (C' & K' & P' & Q').
  rewrite (cached_h d' C'). unfold v_mat. rewrite Q', L. cbn [bind]. rewrite K', P'.
  assert (Sv : shape (Dvr_Model.np_diag (v (points d))) = [n; n]) by (rewrite <- Lv; reflexivity).
  rewrite arr_add_ok; [|auto|apply wf_build|congruence]. eexists. split; [reflexivity|]. split; [exact Sk|].
  intros i j Hi Hj. rewrite Sk. rewrite get_build by (apply in_range2; auto). f_equal. apply np_diag_at; lia.
Qed.
Print Assumptions C81_stored_hamiltonian.

(** [solve]: the rows are orthonormal eigenvectors with a first entry that is not negative. *)
Theorem C81_solve eigsh o d h n k es V : match o with None => length (points d) - 1 | Some k => k end = k -> n <> 0 ->
  h_mat d = Ok h -> eigsh h k = Ok (es, V) -> shape V = [n; k] -> eigenvectors n k (entries h) es (entries V) ->
  exists W d', solve eigsh o d = Ok (es, W, d') /\ wf W /\ shape W = [k; n] /\ eigenvectors n k (entries h) es (fun x p => get W [p; x]) /\
    (forall p, p < k -> (0 <= fst (get W [p; 0%nat]))%R) /\ h_mat d' = Ok h.
Proof.
  intros Hk Hn Eh Ee Es Ev. destruct (solve_ok eigsh o d h n k es V Hk Hn Eh Ee Es Ev) as (W & d' & E1 & E2 & E3 & E4 & E5 & _ & E6). exists W, d'. auto 10.
Qed.
Print Assumptions C81_solve.

(** The terms: the sum of the one-dimensional Hamiltonians (or kinetic energies) and of the products
    of the functions given in [extra]. *)
Theorem C81_hamiltonian extra (ko : bool) dvrs hs ns : Forall2 (fun d h => (if ko then Ok (kin d) else h_mat d) = Ok h) dvrs hs ->
  length hs = length ns -> (forall i, i < length ns -> shape (nth i hs noarr) = [nth i ns 0; nth i ns 0]) -> Forall (fits_grid dvrs ns) (given extra) ->
  exists terms, gen_h_terms extra ko dvrs = Ok terms /\ Forall (well_formed ns) terms /\ forall f x, in_range x ns ->
    apply_ham ns terms f x = radd (sum_on_axes ns (map entries hs) f x) (sumL (given extra) (fun t => rmul (factors (values dvrs t) x) (f x))).
Proof.
  intros F L Sh G. assert (Ld : length dvrs = length ns) by (rewrite <- L; clear - F; induction F; cbn [length]; auto).
  eexists. split; [apply (gen_ok extra ko dvrs hs ns); auto|]. split.
  - apply Forall_app. split; [now apply own_formed|]. apply Forall_map. eapply Forall_impl; [|exact G]. intros t. apply diag_formed.
  - intros f x R. now apply terms_sum.
Qed.
Print Assumptions C81_hamiltonian.

Lemma prepared_facts eigsh dvrs sl hs ess : prepared eigsh dvrs sl hs ess -> Forall2 (fun d h => h_mat d = Ok h) dvrs hs /\ length hs = length (map fst sl) /\ length dvrs = length (map fst sl) /\
  (forall i, i < length (map fst sl) -> shape (nth i hs noarr) = [nth i (map fst sl) 0; nth i (map fst sl) 0]).
Proof.
  induction 1 as [|d n m h es V dvrs sl hs ess Hn Eh Sh Ee SV EV P (F & L & L' & S1)]; [repeat split; auto; cbn [length map]; intros; lia|].
  repeat split; [constructor; auto|cbn [length map]; auto|cbn [length map]; auto|]. intros [|i] Hi; cbn [nth map fst]; auto. apply S1. cbn [length map] in Hi. lia.
Qed.
Lemma positive_snd sl : positive sl -> Forall (fun s => snd s <> 0) sl.
Proof. intros P. eapply Forall_impl; [|exact P]. cbv beta. tauto. Qed.

(** The initial vector of MCTDH: the eigenvectors, and a tensor that takes the lowest of each; the state is
    the product of the lowest eigenvectors.  The mean fields are those of the vector. *)
Theorem C81_initial_state eigsh dvrs sl hs ess terms : prepared eigsh dvrs sl hs ess -> positive sl -> Forall (well_formed (map fst sl)) terms ->
  exists Cs A vec mods dvrs', init_state eigsh sl (Some terms) dvrs = Ok (vec, mods, dvrs') /\
    pieces sl Cs A vec /\ all_real Cs /\ all_orthonormal sl Cs /\ states sl hs ess Cs /\ ground sl A /\
    (forall x, in_range x (map fst sl) -> psi (map entries Cs) (map snd sl) (get A) x = times (map col Cs) x) /\
    braket (map fst sl) (times (map col Cs)) (times (map col Cs)) = r1 /\
    update_mod_terms (all_shapes sl) terms vec = Ok mods /\ Forall2 (fun d h => h_mat d = Ok h) dvrs' hs.
Proof.
  intros Pr P WF. destruct (init_ok eigsh dvrs sl hs ess terms Pr P WF) as (Cs & vec & mods & dvrs' & E & St & Pi & Em & Sd & Hd).
  destruct (states_pieces _ _ _ _ St) as (F & O & Re). pose proof (positive_snd sl P) as P2. pose proof (first_ground sl P2) as G. destruct (states_len _ _ _ _ St) as (_ & _ & Lc).
  assert (Ps : forall x, in_range x (map fst sl) -> psi (map entries Cs) (map snd sl) (get (first_only sl)) x = times (map col Cs) x).
  { intros x R. apply psi_ground; auto. apply in_range_len in R. now rewrite map_length in R. }
  exists Cs, (first_only sl), vec, mods, dvrs'. repeat (split; [first [assumption|exact E|exact G]|]). split; [|split; auto].
  rewrite <- (ground_norm sl (first_only sl) P2 G). rewrite <- (C71_norm sl Cs (first_only sl) vec Pi O). unfold braket. apply sumL_ext_in. intros x Hx. apply in_indices in Hx. now rewrite Ps.
Qed.
Print Assumptions C81_initial_state.

(** The energy of the initial state: the sum of the lowest energies, and the mean values of the products in [extra]. *)
Theorem C81_energy eigsh extra dvrs sl hs ess : prepared eigsh dvrs sl hs ess -> positive sl -> Forall (fits_grid dvrs (map fst sl)) (given extra) ->
  equal_tail (map snd sl) -> Forall (fun t => readable (K := C_star) (map fst sl) (map snd sl) (map diagonal (values dvrs t))) (given extra) ->
  exists terms Cs vec mods dvrs', gen_h_terms extra false dvrs = Ok terms /\ init_state eigsh sl (Some terms) dvrs = Ok (vec, mods, dvrs') /\ states sl hs ess Cs /\
    energy_expection (all_shapes sl) terms vec =
      Ok (radd (lowest ess) (sumL (given extra) (fun t => sumL (indices (map fst sl)) (fun x => rmul (factors (values dvrs t) x) (RtoC (Cnorm2 (times (map col Cs) x))))))).
Proof.
  intros Pr P G T Rd. destruct (prepared_facts _ _ _ _ _ Pr) as (F & L & Ld & Sh). pose proof (positive_snd sl P) as P2.
  set (terms := own_terms 0 hs ++ map (fun t => map diagonal (values dvrs t)) (given extra)).
  assert (Eg : gen_h_terms extra false dvrs = Ok terms) by (apply (gen_ok extra false dvrs hs (map fst sl)); auto).
  assert (WF : Forall (well_formed (map fst sl)) terms).
  { apply Forall_app. split; [now apply own_formed|]. apply Forall_map. eapply Forall_impl; [|exact G]. intros t. apply diag_formed. }
  assert (RD : Forall (readable (map fst sl) (map snd sl)) terms). { apply Forall_app. split; [now apply own_readable|]. apply Forall_map. exact Rd. }
  destruct (C81_initial_state eigsh dvrs sl hs ess terms Pr P WF) as (Cs & A & vec & mods & dvrs' & E & Pi & Re & O & St & Gr & Ps & Nr & _).
  exists terms, Cs, vec, mods, dvrs'. split; [exact Eg|]. split; [exact E|]. split; [exact St|]. rewrite (C71_energy sl Cs A vec terms Pi P Re O WF RD). f_equal.
  transitivity (braket (map fst sl) (times (map col Cs)) (fun x => radd (rmul (lowest ess) (times (map col Cs) x)) (sumL (given extra) (fun t => rmul (factors (values dvrs t) x) (times (map col Cs) x))))).
  - unfold braket. apply sumL_ext_in. intros x Hx. apply in_indices in Hx. rewrite Ps by auto. f_equal. unfold terms. rewrite (terms_sum (map fst sl) hs dvrs (given extra)) by auto.
    rewrite Ps by auto. f_equal. rewrite <- (sum_eigen sl hs ess Cs x P2 St Hx). unfold sum_on_axes. apply sumL_ext_in. intros i Hi. apply in_seq in Hi. unfold on_axis. apply sumn_ext. intros k Hk. f_equal. apply Ps. now apply in_range_upd_same.
  - unfold braket. rewrite (sumL_ext _ _ _ (fun x => radd (rmul (lowest ess) (rmul (rconj (times (map col Cs) x)) (times (map col Cs) x))) (sumL (given extra) (fun t => rmul (factors (values dvrs t) x) (RtoC (Cnorm2 (times (map col Cs) x))))))).
    + rewrite sumL_add, sumL_scal_l. unfold braket in Nr. rewrite Nr. rewrite sumL_swap. f_equal. ring.
    + intros x. rewrite (sumL_ext _ (given extra) (fun t => rmul (factors (values dvrs t) x) (RtoC (Cnorm2 (times (map col Cs) x)))) (fun t => rmul (rconj (times (map col Cs) x)) (rmul (factors (values dvrs t) x) (times (map col Cs) x)))) by (intros t; rewrite <- Cmul_conj; ring). rewrite sumL_scal_l. ring.
Qed.
Print Assumptions C81_energy.

Lemma zero_data (D : carr) n m : wf D -> shape D = [n; m] -> (forall x q, x < n -> q < m -> get D [x; q] = r0) -> data D = repeat r0 (n * m).
Proof.
  intros W E Z. transitivity (data (mkArr [n; m] (repeat (r0 : C_star) (n * m)))); [|reflexivity]. f_equal. apply arr_ext; auto.
  - unfold wf. cbn [data shape prod fold_right]. rewrite repeat_length. lia.
  - intros idx R. rewrite E in R. apply in_range2_inv in R. destruct R as (i & j & -> & Hi & Hj). rewrite Z by auto. unfold get. cbn [data shape]. now rewrite nth_repeat.
Qed.
(** Without [extra] the initial vector does not move but for its phase: the effective Hamiltonian gives zero for all
    matrices and multiplies the tensor by the sum of the lowest energies. *)
Theorem C81_stationary eigsh dvrs sl hs ess inv e : prepared eigsh dvrs sl hs ess -> positive sl -> equal_tail (map snd sl) -> (0 < e)%R ->
  inverts (map snd sl) (get (first_only sl)) (RtoC e) inv ->
  exists terms vec mods dvrs', gen_h_terms None false dvrs = Ok terms /\ init_state eigsh sl (Some terms) dvrs = Ok (vec, mods, dvrs') /\
    energy_expection (all_shapes sl) terms vec = Ok (lowest ess) /\
    h_matvec inv (RtoC e) (all_shapes sl) vec vec terms =
      Ok (mkArr [length vec] (repeat r0 (list_sum (map (fun s => fst s * snd s) sl)) ++ lowest ess :: repeat r0 (prod (map snd sl) - 1))).
Proof.
  intros Pr P T He I. destruct (prepared_facts _ _ _ _ _ Pr) as (F & L & Ld & Sh). pose proof (positive_snd sl P) as P2.
  assert (Eg : gen_h_terms None false dvrs = Ok (own_terms 0 hs ++ [])) by (apply (gen_ok None false dvrs hs (map fst sl)); auto; constructor). rewrite app_nil_r in Eg. set (terms := own_terms 0 hs) in *.
  assert (WF : Forall (well_formed (map fst sl)) terms) by now apply own_formed. assert (RD : Forall (readable (map fst sl) (map snd sl)) terms) by now apply own_readable.
  destruct (init_ok eigsh dvrs sl hs ess terms Pr P WF) as (Cs & vec & mods & dvrs' & E & St & Pi & Em & Sd & Hd).
  destruct (states_pieces _ _ _ _ St) as (FC & O & Re). pose proof (first_ground sl P2) as G. destruct (states_len _ _ _ _ St) as (_ & _ & Lc).
  assert (Ps : forall x, in_range x (map fst sl) -> psi (map entries Cs) (map snd sl) (get (first_only sl)) x = times (map col Cs) x).
  { intros x R. apply psi_ground; auto. apply in_range_len in R. now rewrite map_length in R. }
  assert (HE : forall x, in_range x (map fst sl) -> apply_ham (map fst sl) terms (psi (map entries Cs) (map snd sl) (get (first_only sl))) x = rmul (lowest ess) (psi (map entries Cs) (map snd sl) (get (first_only sl)) x)).
  { intros x R. rewrite Ps by auto. rewrite <- (sum_eigen sl hs ess Cs x P2 St R). unfold terms. rewrite <- (app_nil_r (own_terms 0 hs)). pose proof (terms_sum (map fst sl) hs dvrs [] (psi (map entries Cs) (map snd sl) (get (first_only sl))) x L Ld (Forall_nil _) R) as X.
    cbn [map] in X. etransitivity; [exact X|]. rewrite sumL_nil. transitivity (sum_on_axes (map fst sl) (map entries hs) (psi (map entries Cs) (map snd sl) (get (first_only sl))) x); [ring|].
    unfold sum_on_axes. apply sumL_ext_in. intros i Hi. apply in_seq in Hi. unfold on_axis. apply sumn_ext. intros k Hk. f_equal. apply Ps. now apply in_range_upd_same. }
  exists terms, vec, mods, dvrs'. split; [exact Eg|]. split; [exact E|]. split.
  - rewrite (C71_energy sl Cs (first_only sl) vec terms Pi P Re O WF RD). f_equal.
    rewrite (braket_ext_r' _ _ _ (fun x => rmul (lowest ess) (psi (map entries Cs) (map snd sl) (get (first_only sl)) x))) by exact HE. unfold braket.
    rewrite (sumL_ext _ _ _ (fun x => rmul (lowest ess) (rmul (rconj (psi (map entries Cs) (map snd sl) (get (first_only sl)) x)) (psi (map entries Cs) (map snd sl) (get (first_only sl)) x)))) by (intros; ring).
    rewrite sumL_scal_l. pose proof (C71_norm sl Cs (first_only sl) vec Pi O) as N. unfold braket at 1 in N. rewrite N, (ground_norm sl _ P2 G). ring.
  - destruct (C71_equations sl Cs (first_only sl) vec terms inv (RtoC e) Pi P Re O WF RD I) as (Ds & B & w & Ew & (FD & WB & SB & Vw) & Sv). rewrite Ew. f_equal. f_equal. rewrite Vw.
    assert (LD : length Ds = length sl) by (clear - FD; induction FD; cbn [length]; auto).
    destruct (stationary sl Cs (first_only sl) (Forall2_shapes _ _ FC) (orthonormal_at _ _ O) terms (lowest ess) HE e (map entries Ds) (get B) He) as (ZD & ZB); [now rewrite !map_length|exact Sv|].
    rewrite map_app, concat_app. f_equal.
    + clear - FD ZD. assert (Z : forall i x q, i < length sl -> x < nth i (map fst sl) 0 -> q < nth i (map snd sl) 0 -> get (nth i Ds noarr) [x; q] = r0).
      { intros i x q Hi Hx Hq. assert (LD : length Ds = length sl) by (clear - FD; induction FD; cbn [length]; auto). specialize (ZD i x q ltac:(rewrite map_length; auto) Hx Hq). rewrite (nth_map_in entries Ds i _ noarr) in ZD by (rewrite LD; auto). exact ZD. }
      clear ZD. induction FD as [|(n, m) D sl Ds (WD & SD) FD IH]; [reflexivity|]. cbn [map concat fst snd]. change (list_sum (n * m :: map (fun s : nat * nat => fst s * snd s) sl)) with (n * m + list_sum (map (fun s : nat * nat => fst s * snd s) sl)).
      rewrite repeat_app. f_equal.
      * apply zero_data; auto. intros x q Hx Hq. apply (Z 0 x q); auto. cbn [length]. lia.
      * apply IH. intros i x q Hi Hx Hq. apply (Z (S i) x q); auto. cbn [length]. lia.
    + cbn [map concat]. rewrite app_nil_r. transitivity (data (mkArr (map snd sl) (lowest ess :: repeat r0 (prod (map snd sl) - 1)))); [|reflexivity]. f_equal. apply arr_ext; auto.
      * unfold wf. cbn [data shape length]. rewrite repeat_length. pose proof (prod_pos sl P2). lia.
      * intros m Rm. rewrite SB in Rm. rewrite ZB by auto. unfold get, first_only. cbn [data shape]. destruct (ravel (map snd sl) m) as [|k]; cbn [nth]; [ring|]. rewrite !nth_repeat. ring.
Qed.
Print Assumptions C81_stationary.

(** The initial vector of [PO_DVR]: the product of the lowest eigenvectors, an eigenvector of the Hamiltonian without coupling. *)
Theorem C81_product_state eigsh dvrs sl hs ess : prepared eigsh dvrs sl hs ess -> Forall (fun s => fst s <> 0 /\ snd s = 1) sl -> equal_tail (map fst sl) ->
  exists Cs vec dvrs', po_init_state eigsh dvrs = Ok (vec, dvrs') /\ states sl hs ess Cs /\ length vec = prod (map fst sl) /\
    (forall x, in_range x (map fst sl) -> nth (ravel (map fst sl) x) vec r0 = times (map col Cs) x) /\
    po_matvec (map (fun p => (fst p, dot_vec (snd p))) (combine (map fst sl) hs)) None vec = Ok (map (rmul (lowest ess)) vec) /\ Forall2 (fun d h => h_mat d = Ok h) dvrs' hs.
Proof.
  intros Pr P T. assert (Q : Forall (fun s => snd s = 1) sl) by (eapply Forall_impl; [|exact P]; cbv beta; tauto). assert (P2 : Forall (fun s => snd s <> 0) sl) by (eapply Forall_impl; [|exact Q]; cbv beta; lia).
  destruct (prepared_facts _ _ _ _ _ Pr) as (F & L & Ld & Sh). destruct (po_init_ok eigsh dvrs sl hs ess Pr Q) as (Cs & vec & dvrs' & E & St & Lv & V & _ & Hd). destruct (states_len _ _ _ _ St) as (Lh & _ & Lc).
  exists Cs, vec, dvrs'. split; [exact E|]. split; [exact St|]. split; [exact Lv|]. split; [exact V|]. split; [|exact Hd].
  set (ops := map (fun p => (fst p, dot_vec (snd p))) (combine (map fst sl) hs)).
  assert (Lo : length ops = length sl) by (unfold ops; rewrite map_length, combine_length, map_length; lia).
  assert (Fo : map fst ops = map fst sl). { unfold ops. rewrite map_map. cbn [fst]. clear - L. revert L. generalize (map fst sl). intros l. revert l. induction hs as [|h hs IH]; intros [|n l] L; cbn [length] in L; try lia; cbn [combine map fst]; auto. f_equal. apply IH. lia. }
  destruct (PoDvr_Prop.C45_product C_star ops (fun i => entries (nth i hs noarr)) None vec) as (w & Ew & Lw & Vw).
  - apply Forall_forall. intros o Ho. assert (In (fst o) (map fst ops)) as X by now apply in_map. rewrite Fo in X. apply in_map_iff in X. destruct X as (s & <- & Hs). rewrite Forall_forall in P. apply (P s Hs).
  - now rewrite Fo.
  - now rewrite Fo.
  - intros i o Ho. assert (Hi : i < length ops) by (apply nth_error_Some; intros X; pose proof (eq_trans (eq_sym Ho) X) as Y; discriminate Y). apply (nth_error_nth _ _ (0, dot_vec noarr)) in Ho. subst o. unfold ops. rewrite (nth_map_in _ (combine (map fst sl) hs) i _ (0, noarr)) by (rewrite combine_length, map_length; lia).
    rewrite combine_nth by (rewrite map_length; lia). cbn [fst snd]. apply PoDvr_Prop.dot_acts. apply Sh. rewrite map_length. lia.
  - intros d0 H. discriminate H.
  - rewrite Ew. f_equal. rewrite Fo in *. apply (nth_ext _ _ r0 r0); [rewrite map_length; lia|]. intros k Hk. rewrite Lw in Hk.
    destruct (subindex_ok (map fst sl) k Hk) as (x & _ & R & <-). rewrite Vw by auto. rewrite (nth_map_in _ vec _ _ r0) by (rewrite Lv; now apply ravel_lt). rewrite V by auto. rewrite <- (sum_eigen sl hs ess Cs x P2 St R).
    unfold sum_on_axes. rewrite map_length. replace (@length (@op1 C_star) ops) with (length sl) by exact (eq_sym Lo). unfold sumn. transitivity (sumL (seq 0 (length sl)) (fun i => on_axis i (nth i (map fst sl) 0) (entries (nth i hs noarr)) (fun y => nth (ravel (map fst sl) y) vec r0) x)); [ring|].
    apply sumL_ext_in. intros i Hi. apply in_seq in Hi. rewrite (nth_map_in entries hs i _ noarr) by lia. unfold on_axis. apply sumn_ext. intros j Hj. f_equal. apply V. now apply in_range_upd_same.
Qed.
Print Assumptions C81_product_state.

(** Examples: two points per axis; the solver returns a column with the wrong sign. *)
Definition k_ex : carr := mkArr [2; 2] [RtoC 40; RtoC (-12); RtoC (-12); RtoC 34].
Definition w_ex : list R -> list C_star := fun xs => map (fun x => RtoC x) xs.
Definition d_ex : dvr := mkDvr k_ex [1; 0]%R (Some w_ex) None.
Definition V2_ex : carr := mkArr [2; 2] [RtoC (- (3 / 5)); RtoC (- (4 / 5)); RtoC (- (4 / 5)); RtoC (3 / 5)].
Definition V1_ex : carr := mkArr [2; 1] [RtoC (- (3 / 5)); RtoC (- (4 / 5))].
Definition e_ex : carr -> nat -> res (list C_star * carr) := fun _ k =>
  match k with 1 => Ok ([RtoC 25], V1_ex) | 2 => Ok ([RtoC 25; RtoC 50], V2_ex) | _ => Raise ValueError end.
Lemma eig2 h : (forall x y, x < 2 -> y < 2 -> entries h x y = nth (2 * x + y) [RtoC 41; RtoC (-12); RtoC (-12); RtoC 34] r0) -> eigenvectors 2 2 (entries h) [RtoC 25; RtoC 50] (entries V2_ex) /\ eigenvectors 2 1 (entries h) [RtoC 25] (entries V1_ex).
Proof.
  intros H. repeat split.
  - intros [|[|x]] [|[|p]] Hx Hp; try lia; reflexivity.
  - intros [|[|p]] [|[|q]] Hp Hq; try lia; apply Ceq; lazy -[Rplus Rmult Ropp Rminus Rinv Rdiv IZR]; lra.
  - intros [|[|x]] [|[|p]] Hx Hp; try lia; rewrite !sumn_S, sumn_0, !H by lia; apply Ceq; lazy -[Rplus Rmult Ropp Rminus Rinv Rdiv IZR]; lra.
  - intros [|[|x]] [|p] Hx Hp; try lia; reflexivity.
  - intros [|p] [|q] Hp Hq; try lia; apply Ceq; lazy -[Rplus Rmult Ropp Rminus Rinv Rdiv IZR]; lra.
  - intros [|[|x]] [|p] Hx Hp; try lia; rewrite !sumn_S, sumn_0, !H by lia; apply Ceq; lazy -[Rplus Rmult Ropp Rminus Rinv Rdiv IZR]; lra.
Qed.
Lemma h_ok : exists h, h_mat d_ex = Ok h /\ shape h = [2; 2] /\ forall x y, x < 2 -> y < 2 -> entries h x y = nth (2 * x + y) [RtoC 41; RtoC (-12); RtoC (-12); RtoC 34] r0.
Proof.
  destruct (C81_stored_hamiltonian e_ex [] d_ex d_ex w_ex 2) as (h & E & Sh & V); try reflexivity. exists h. split; [exact E|]. split; [exact Sh|].
  intros x y Hx Hy. unfold entries. rewrite V by auto. destruct x as [|[|x]], y as [|[|y]]; try lia; apply Ceq; lazy -[Rplus Rmult Ropp Rminus Rinv Rdiv IZR]; lra.
Qed.
Definition inv_ex : carr -> res carr := fun M => Ok (build (shape M) (fun x => rmul (delta (nth 0 x 0) (nth 1 x 0)) (if nth 0 x 0 =? 0 then RtoC (/ 2) else r1))).
(** Two states on the first axis, one on the second. *)
Example C81_example : exists hs ess, prepared e_ex [d_ex; d_ex] [(2, 2); (2, 1)] hs ess /\ positive [(2, 2); (2, 1)] /\ equal_tail [2; 1] /\ lowest ess = RtoC 50 /\
  Forall (fits_grid [d_ex; d_ex] [2; 2]) [[(0, w_ex); (1, w_ex)]] /\ Forall (fun t => readable (K := C_star) [2; 2] [2; 1] (map diagonal (values [d_ex; d_ex] t))) [[(0, w_ex); (1, w_ex)]] /\
  inverts [2; 1] (get (first_only [(2, 2); (2, 1)])) (RtoC 1) inv_ex.
Proof.
  destruct h_ok as (h & E & Sh & V). destruct (eig2 h V) as (E2 & E1). exists [h; h], [[RtoC 25; RtoC 50]; [RtoC 25]]. split; [|split; [|split; [|split; [|split; [|split]]]]].
  - eapply prepared_cons; [lia|exact E|exact Sh|reflexivity|reflexivity|exact E2|]. eapply prepared_cons; [lia|exact E|exact Sh|reflexivity|reflexivity|exact E1|]. constructor.
  - unfold positive. repeat constructor; cbn; lia.
  - apply PoDvr_Prop.C45_two_axes. cbn. lia.
  - apply Ceq; lazy -[Rplus Rmult Ropp Rminus IZR]; lra.
  - repeat constructor; cbn; intuition lia.
  - constructor; [apply C71_two_modes; cbn; lia|constructor].
  - intros i M Hi WM SM VM. eexists. split; [reflexivity|]. split; [exact SM|]. intros p q Hp Hq.
    assert (D : forall a b, a < nth i [2; 1] 0 -> b < nth i [2; 1] 0 -> density [2; 1] (get (first_only [(2, 2); (2, 1)])) i a b = rmul (delta a 0) (delta b 0)).
    { intros a b Ha Hb. destruct i as [|[|i]]; cbn in Hi; try lia; cbn [nth] in Ha, Hb; destruct a as [|[|a]]; try lia; destruct b as [|[|b]]; try lia; unfold density; apply Ceq; lazy -[Rplus Rmult Ropp Rminus IZR]; ring. }
    rewrite (sumn_ext _ _ _ (fun k => rmul (delta k p) (rmul (if p =? 0 then RtoC (/ 2) else r1) (radd (rmul (delta k 0) (delta q 0)) (rmul (RtoC 1) (delta k q)))))).
    + rewrite (sumn_delta C_star (nth i [2; 1] 0) p (fun k => rmul (if p =? 0 then RtoC (/ 2) else r1) (radd (rmul (delta k 0) (delta q 0)) (rmul (RtoC 1) (delta k q))))) by exact Hp.
      destruct i as [|[|i]]; cbn in Hi; try lia; cbn [nth] in Hp, Hq; destruct p as [|[|p]]; try lia; destruct q as [|[|q]]; try lia; apply Ceq; lazy -[Rplus Rmult Ropp Rminus Rinv IZR]; lra.
    + intros k Hk. rewrite SM. rewrite get_build by (apply in_range2; auto). cbn [nth]. rewrite VM by auto. rewrite D by auto. replace (delta p k : C_star) with (delta k p : C_star) by (unfold delta; now rewrite Nat.eqb_sym). ring.
Qed.
(** One state per axis. *)
Example C81_product_example : exists hs ess, prepared e_ex [d_ex; d_ex] [(2, 1); (2, 1)] hs ess /\ Forall (fun s => fst s <> 0 /\ snd s = 1) [(2, 1); (2, 1)] /\ equal_tail [2; 2] /\ lowest ess = RtoC 50.
Proof.
  destruct h_ok as (h & E & Sh & V). destruct (eig2 h V) as (E2 & E1). exists [h; h], [[RtoC 25]; [RtoC 25]]. split; [|split; [|split]].
  - eapply prepared_cons; [lia|exact E|exact Sh|reflexivity|reflexivity|exact E1|]. eapply prepared_cons; [lia|exact E|exact Sh|reflexivity|reflexivity|exact E1|]. constructor.
  - repeat constructor; cbn; lia.
  - apply PoDvr_Prop.C45_two_axes. cbn. lia.
  - apply Ceq; lazy -[Rplus Rmult Ropp Rminus IZR]; lra.
Qed.
(** Setting a potential after solving. *)
Example C81_stored_example : exists d', do_dvrs e_ex [Solve (Some 2); SetPot (fun xs => map (fun x => RtoC (x + 1)) xs)] d_ex = Ok d' /\ kept d' = None /\
  exists d1, do_dvrs e_ex [Solve (Some 2)] d_ex = Ok d1 /\ kept d1 <> None.
Proof.
  destruct h_ok as (h & E & Sh & V). destruct (eig2 h V) as (E2 & _).
  destruct (C81_solve e_ex (Some 2) d_ex h 2 2 [RtoC 25; RtoC 50] V2_ex eq_refl ltac:(lia) E eq_refl eq_refl E2) as (W & d1 & E1 & _).
  eexists. split; [|split]; [cbn [do_dvrs do_dvr]; rewrite E1; cbn [bind snd]; reflexivity|reflexivity|]. exists d1. split; [cbn [do_dvrs do_dvr]; rewrite E1; reflexivity|].
  unfold solve in E1. rewrite E in E1. cbn [bind e_ex] in E1. destruct (mapM upright _); [|discriminate]. cbn [bind] in E1. injection E1 as _ <-. discriminate.
Qed.
