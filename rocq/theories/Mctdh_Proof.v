(** Proofs about MCTDH vectors, mean fields and the effective Hamiltonian. *)
From Coq Require Import List Arith ZArith Bool Lia Reals.
From Verif Require Import Py Alg ListX NdArray_Model NdArray_Proof Contract_Model Contract_Spec Contract_Proof Mode_Proof
  PoDvr_Model PoDvr_Spec PoDvr_Proof PoDvr_Prop Cplx Mctdh_Model Mctdh_Spec Kron_Proof.
Import ListNotations.
Local Open Scope nat_scope.
Local Open Scope list_scope.
Add Ring Cr : (r_theory C_star).
Notation cmat := (@mat C_star).

(** ** Sub-vectors *)
Definition part_ok (sh : list nat) (P : carr) : Prop := wf P /\ shape P = sh.
Definition flat (Ps : list carr) : list C_star := concat (map (@data C_star) Ps).

Lemma part_size shapes Ps : Forall2 part_ok shapes Ps -> map prod shapes = map (fun P : carr => length (data P)) Ps.
Proof. intros F. induction F as [|sh P shapes Ps (W & E) F IH]; cbn [map]; [reflexivity|]. rewrite IH. unfold wf in W. rewrite W, E. reflexivity. Qed.

Lemma sub_at : forall (Ps : list carr) i, i < length Ps ->
  let sizes := map (fun P : carr => length (data P)) Ps in
  firstn (list_sum (firstn (S i) sizes) - list_sum (firstn i sizes)) (skipn (list_sum (firstn i sizes)) (flat Ps)) = data (nth i Ps (mkArr [] [])).
Proof.
  induction Ps as [|P Ps IH]; intros [|i] Hi sizes; cbn in Hi; try lia; unfold sizes; clear sizes; unfold flat; cbn [map concat].
  - cbn [firstn list_sum fold_right nth skipn]. rewrite Nat.add_0_r, Nat.sub_0_r. rewrite firstn_app, firstn_all, Nat.sub_diag. cbn. apply app_nil_r.
  - specialize (IH i ltac:(lia)). cbn zeta in IH. set (sz := map (fun P : carr => length (data P)) Ps) in *. rewrite !firstn_cons. set (u := firstn (S i) sz) in *. set (v := firstn i sz) in *.
    assert (El : forall (a : nat) l, list_sum (a :: l) = a + list_sum l) by (intros; reflexivity). rewrite !El.
    rewrite <- (Nat.add_comm (list_sum v)), <- skipn_skipn, skipn_app, skipn_all, Nat.sub_diag. cbn [skipn app nth].
    rewrite <- IH. f_equal. lia.
Qed.

Lemma sub_vec_ok shapes Ps i : Forall2 part_ok shapes Ps -> i < length Ps -> get_sub_vec shapes (Z.of_nat i) (flat Ps) = Ok (nth i Ps (mkArr [] [])).
Proof.
  intros F Hi. pose proof (Forall2_len _ _ _ F) as L. unfold get_sub_vec. rewrite Z.mod_small by lia. rewrite Nat2Z.id. rewrite (part_size _ _ F). rewrite sub_at by auto.
  destruct (nth_error shapes i) as [sh|] eqn:E; [|apply nth_error_None in E; lia]. 
  assert (PO : part_ok sh (nth i Ps (mkArr [] []))).
  { clear - F E Hi. revert i E Hi. induction F as [|s P shapes Ps PP F IH]; intros [|i] E Hi; cbn in *; try lia; [injection E as <-; auto|]. apply IH; auto. lia. }
  destruct PO as (W & Es). unfold reshape. cbn [shape data prod fold_right]. unfold wf in W. rewrite W, Es.
  destruct (nth i Ps (mkArr [] [])) as [s d]. cbn in *. subst s. rewrite <- W.
  destruct (_ =? _) eqn:X; [reflexivity|]. apply Nat.eqb_neq in X. lia.
Qed.
Lemma sub_vec_last shapes Ps : Forall2 part_ok shapes Ps -> Ps <> [] -> get_sub_vec shapes (-1) (flat Ps) = get_sub_vec shapes (Z.of_nat (length Ps - 1)) (flat Ps).
Proof.
  intros F N. pose proof (Forall2_len _ _ _ F) as L. assert (0 < length Ps) by (destruct Ps; [congruence|cbn; lia]).
  unfold get_sub_vec. replace (-1 mod Z.of_nat (length shapes))%Z with (Z.of_nat (length Ps - 1) mod Z.of_nat (length shapes))%Z; [reflexivity|].
  replace (Z.of_nat (length Ps - 1)) with (-1 + 1 * Z.of_nat (length shapes))%Z by lia. apply Z.mod_add. lia.
Qed.

(** ** Mean fields *)
Lemma get_T (c : carr) n m p x : shape c = [n; m] -> p < m -> x < n -> get (mat_T c) [p; x] = get c [x; p].
Proof. intros E Hp Hx. unfold mat_T, transpose. rewrite E. rewrite get_build by (apply in_range2; auto). unfold ndim. rewrite E. reflexivity. Qed.
Lemma shape_T (c : carr) n m : shape c = [n; m] -> shape (mat_T c) = [m; n].
Proof. intros E. unfold mat_T, transpose. rewrite E. reflexivity. Qed.

Lemma eval_ok (h c : carr) n m : shape h = [n; n] -> shape c = [n; m] ->
  exists w, eval_op h c = Ok w /\ wf w /\ shape w = [m; m] /\ forall p q, p < m -> q < m -> get w [p; q] = comp n (adj (entries c)) (comp n (entries h) (entries c)) p q.
Proof.
  intros Eh Ec. unfold eval_op. rewrite (matmul_ok _ h c n n m) by auto. cbn [bind].
  rewrite (matmul_ok _ _ _ m n m) by (try reflexivity; exact (shape_T c n m Ec)).
  eexists. split; [reflexivity|]. split; [apply wf_build|]. split; [reflexivity|]. intros p q Hp Hq. rewrite get_build by (apply in_range2; auto). cbn [nth].
  unfold comp, adj, entries. apply sumn_ext. intros x Hx. rewrite get_conj, (get_T c n m) by auto. rewrite get_build by (apply in_range2; auto). reflexivity.
Qed.
Lemma get_re (c : carr) idx : get (re_part c) idx = RtoC (fst (get c idx)).
Proof.
  unfold get, re_part; cbn [shape data]. transitivity (nth (ravel (shape c) idx) (map (fun z : C_star => RtoC (fst z)) (data c)) ((fun z : C_star => RtoC (fst z)) r0)); [reflexivity|].
  apply (map_nth (fun z : C_star => RtoC (fst z))).
Qed.
Lemma get_im (c : carr) idx : get (im_part c) idx = RtoC (snd (get c idx)).
Proof.
  unfold get, im_part; cbn [shape data]. transitivity (nth (ravel (shape c) idx) (map (fun z : C_star => RtoC (snd z)) (data c)) ((fun z : C_star => RtoC (snd z)) r0)); [reflexivity|].
  apply (map_nth (fun z : C_star => RtoC (snd z))).
Qed.

Definition real_entries (c : carr) : Prop := forall idx, in_range idx (shape c) -> snd (get c idx) = 0%R.
(** what the code takes as the mean field *)
Definition two_parts (n : nat) (h c : cmat) (p q : nat) : C_star :=
  radd (sumn n (fun x => sumn n (fun y => rmul (RtoC (fst (c x p))) (rmul (h x y) (RtoC (fst (c y q)))))))
       (sumn n (fun x => sumn n (fun y => rmul (RtoC (snd (c x p))) (rmul (h x y) (RtoC (snd (c y q))))))).
Lemma mod_ok (h c : carr) n m : shape h = [n; n] -> shape c = [n; m] ->
  exists w, mod_op c h = Ok w /\ wf w /\ shape w = [m; m] /\ forall p q, p < m -> q < m -> get w [p; q] = two_parts n (entries h) (entries c) p q.
Proof.
  intros Eh Ec. unfold mod_op. destruct (eval_ok h (re_part c) n m Eh Ec) as (w1 & E1 & W1 & S1 & V1). destruct (eval_ok h (im_part c) n m Eh Ec) as (w2 & E2 & W2 & S2 & V2).
  rewrite E1, E2. cbn [bind]. rewrite arr_add_ok by (auto; congruence). eexists. split; [reflexivity|]. split; [apply wf_build|]. split; [exact S1|].
  intros p q Hp Hq. rewrite get_build by (rewrite S1; apply in_range2; auto). rewrite V1, V2 by auto. unfold two_parts, comp, adj, entries. f_equal; apply sumn_ext; intros x Hx.
  - rewrite <- sumn_scal_l. apply sumn_ext. intros y Hy. rewrite !get_re, RtoC_conj. reflexivity.
  - rewrite <- sumn_scal_l. apply sumn_ext. intros y Hy. rewrite !get_im, RtoC_conj. reflexivity.
Qed.
Lemma two_parts_real n m h (c : cmat) p q : (forall x y, x < n -> y < m -> snd (c x y) = 0%R) -> p < m -> q < m ->
  two_parts n h c p q = comp n (adj c) (comp n h c) p q.
Proof.
  intros R Hp Hq. unfold two_parts, comp, adj. 
  replace (sumn n (fun x => sumn n (fun y => rmul (RtoC (snd (c x p))) (rmul (h x y) (RtoC (snd (c y q))))))) with (r0 : C_star).
  2:{ symmetry. apply sumn_zero. intros x Hx. apply sumn_zero. intros y Hy. rewrite R by auto. replace (RtoC 0) with (r0 : C_star) by reflexivity. ring. }
  match goal with |- radd ?a r0 = _ => replace (radd a r0) with a by ring end. apply sumn_ext. intros x Hx. rewrite <- sumn_scal_l. apply sumn_ext. intros y Hy.
  assert (Z : forall a, a < n -> forall b, b < m -> RtoC (fst (c a b)) = c a b) by (intros a Ha b Hb; apply Ceq; cbn; [reflexivity|now rewrite R]).
  rewrite <- (Z x Hx p Hp), <- (Z y Hy q Hq). cbn [RtoC fst]. rewrite RtoC_conj. reflexivity.
Qed.

(** ** Products with one matrix per axis *)
Notation nomat := (@no_mat C_star).
Fixpoint fold_ops (sh : list nat) (term : cterm) (Ms : list cmat) : list cmat :=
  match term with
  | [] => Ms
  | (j, h) :: term => fold_ops sh term (upd j (comp (nth j sh 0) (entries h) (nth j Ms nomat)) Ms)
  end.
Lemma length_fold sh : forall term Ms, length (fold_ops sh term Ms) = length Ms.
Proof. induction term as [|[j h] term IH]; intros Ms; cbn [fold_ops]; auto. rewrite IH. apply length_upd. Qed.
Definition find_axis (j : nat) (term : cterm) : option (nat * carr) := find (fun p => fst p =? j) term.
Lemma find_not_in j : forall term : cterm, ~ In j (map fst term) -> find_axis j term = None.
Proof. unfold find_axis. induction term as [|[k h] term IH]; intros N; cbn in *; auto. destruct (k =? j) eqn:E; [apply Nat.eqb_eq in E; tauto|]. apply IH. tauto. Qed.
Lemma nth_fold sh j : forall term Ms, NoDup (map fst term) -> j < length Ms ->
  nth j (fold_ops sh term Ms) nomat = match find_axis j term with Some (_, h) => comp (nth j sh 0) (entries h) (nth j Ms nomat) | None => nth j Ms nomat end.
Proof.
  induction term as [|[k h] term IH]; intros Ms ND Hj; cbn [fold_ops]; [reflexivity|]. cbn [map] in ND. inversion ND as [|? ? N ND']; subst. rewrite IH by (auto; now rewrite length_upd).
  unfold find_axis at 2. cbn [find fst]. destruct (k =? j) eqn:E.
  - apply Nat.eqb_eq in E. subst k. rewrite find_not_in by auto. apply nth_upd_eq. auto.
  - apply Nat.eqb_neq in E. fold (find_axis j term). rewrite !nth_upd_neq by auto. reflexivity.
Qed.
Lemma fold_app sh : forall t1 t2 Ms, fold_ops sh (t1 ++ t2) Ms = fold_ops sh t2 (fold_ops sh t1 Ms).
Proof. induction t1 as [|[j h] t1 IH]; intros; cbn; auto. Qed.

Definition op_fits (sh : list nat) (p : nat * carr) : Prop :=
  fst p < length sh /\ shape (snd p) = [nth (fst p) sh 0; nth (fst p) sh 0] /\ nth (fst p) sh 0 <> 0 /\ equal_after (fst p) sh.
Lemma coeff_ok ms (A : list nat -> C_star) sh : forall term T Ms, wf T -> shape T = sh -> length Ms = length sh -> length ms = length sh ->
  (forall x, in_range x sh -> get T x = psi Ms ms A x) -> Forall (op_fits sh) term ->
  exists T', coeff_op T term = Ok T' /\ wf T' /\ shape T' = sh /\ forall x, in_range x sh -> get T' x = psi (fold_ops sh term Ms) ms A x.
Proof.
  induction term as [|[j h] term IH]; intros T Ms W Es L1 L2 V F.
  - exists T. auto.
  - inversion F as [|? ? (Hj & Eh & NZ & EA) F']; subst. cbn [fst snd] in *. 
    destruct (C45_transform C_star j T h (nth j (shape T) 0) (nth j (shape T) 0)) as (w & Ew & Ww & Sw & Vw); auto. rewrite upd_same in Sw.
    cbn [coeff_op fold_ops]. rewrite Ew. cbn [bind]. apply IH; auto.
    + now rewrite length_upd.
    + intros x R. rewrite Vw by congruence. rewrite <- axis_psi; [|lia|rewrite L1; apply in_range_len; auto|lia].
      unfold on_axis. apply sumn_ext. intros k Hk. f_equal. apply V. apply in_range_upd_same; auto.
Qed.

(** ** The effective Hamiltonian *)
Lemma C_at0 : forall (sl : list (nat * nat)) (Cs : list carr), Forall2 part_ok (map (fun s => [fst s; snd s]) sl) Cs -> Forall real_entries Cs -> forall i, i < length sl ->
  wf (nth i Cs (mkArr [] [])) /\ shape (nth i Cs (mkArr [] [])) = [nth i (map fst sl) 0; nth i (map snd sl) 0] /\ nth i (map entries Cs) nomat = entries (nth i Cs (mkArr [] [])) /\ real_entries (nth i Cs (mkArr [] [])).
Proof.
  induction sl as [|[n m] l IH]; intros Cs HC Re i Hi; cbn in Hi; [lia|]. inversion HC as [|? C ? Cs' (W & E) F]; subst. inversion Re; subst. destruct i as [|i]; cbn [map nth fst snd].
  - repeat split; auto.
  - apply IH; auto. lia.
Qed.
Section Eff.
Variables (sl : list (nat * nat)) (Cs : list carr) (A : carr).
Let ns := map fst sl.
Let ms := map snd sl.
Let shapes := all_shapes sl.
Let vec := flat (Cs ++ [A]).
Let cs : list cmat := map entries Cs.
Let noarr : carr := mkArr [] [].
Hypothesis HC : Forall2 part_ok (map (fun s => [fst s; snd s]) sl) Cs.
Hypothesis HA : part_ok ms A.
Hypothesis Hpos : Forall (fun s => fst s <> 0 /\ snd s <> 0) sl.
Hypothesis Hreal : Forall real_entries Cs.
Hypothesis Horth : forall i, i < length ns -> orthonormal (nth i ns 0) (nth i ms 0) (nth i cs nomat).

Lemma L_ms : length ms = length ns.
Proof. unfold ms, ns. now rewrite !map_length. Qed.
Lemma L_Cs : length Cs = length ns.
Proof. pose proof (Forall2_len _ _ _ HC) as L. rewrite map_length in L. unfold ns. rewrite map_length. lia. Qed.
Lemma L_cs : length cs = length ns.
Proof. unfold cs. rewrite map_length. apply L_Cs. Qed.
Lemma L_shapes : length shapes = S (length ns).
Proof. unfold shapes, all_shapes, ns. rewrite app_length, !map_length. cbn. lia. Qed.
Lemma C_at i : i < length ns -> wf (nth i Cs noarr) /\ shape (nth i Cs noarr) = [nth i ns 0; nth i ms 0] /\ nth i cs nomat = entries (nth i Cs noarr) /\ real_entries (nth i Cs noarr).
Proof. intros Hi. apply C_at0; auto. unfold ns in Hi. now rewrite map_length in Hi. Qed.
Lemma pos_at i : i < length ns -> nth i ns 0 <> 0 /\ nth i ms 0 <> 0.
Proof.
  unfold ns, ms. intros Hi. rewrite map_length in Hi. rewrite Forall_forall in Hpos. specialize (Hpos (nth i sl (0, 0)) (nth_In _ _ Hi)).
  rewrite <- (map_nth fst sl (0, 0) i), <- (map_nth snd sl (0, 0) i) in Hpos. exact Hpos.
Qed.
Lemma parts_ok : Forall2 part_ok shapes (Cs ++ [A]).
Proof. unfold shapes, all_shapes. apply Forall2_app; auto. Qed.
Lemma sub_C i : i < length ns -> get_sub_vec shapes (Z.of_nat i) vec = Ok (nth i Cs noarr).
Proof. intros Hi. unfold vec. rewrite sub_vec_ok; [|apply parts_ok|rewrite app_length, L_Cs; cbn; lia]. rewrite app_nth1 by (rewrite L_Cs; auto). reflexivity. Qed.
Lemma sub_A : get_sub_vec shapes (-1) vec = Ok A.
Proof.
  unfold vec. rewrite sub_vec_last; [|apply parts_ok|intros X; apply app_eq_nil in X; destruct X; discriminate]. rewrite sub_vec_ok; [|apply parts_ok|rewrite app_length; cbn; lia].
  rewrite app_length, app_nth2 by (cbn; lia). cbn [length]. replace (length Cs + 1 - 1 - length Cs) with 0 by lia. reflexivity.
Qed.
Lemma sub_A' : get_sub_vec shapes (Z.of_nat (length ns)) vec = Ok A.
Proof.
  unfold vec. rewrite sub_vec_ok; [|apply parts_ok|rewrite app_length, L_Cs; cbn; lia]. rewrite app_nth2 by (rewrite L_Cs; lia). rewrite L_Cs, Nat.sub_diag. reflexivity.
Qed.

(** mean fields of one term *)
Definition mean_of (p q : nat * carr) : Prop :=
  fst q = fst p /\ fst p < length ns /\ wf (snd q) /\ shape (snd q) = [nth (fst p) ms 0; nth (fst p) ms 0] /\
  forall a b, a < nth (fst p) ms 0 -> b < nth (fst p) ms 0 ->
    get (snd q) [a; b] = comp (nth (fst p) ns 0) (adj (nth (fst p) cs nomat)) (comp (nth (fst p) ns 0) (entries (snd p)) (nth (fst p) cs nomat)) a b.
Lemma mods_ok term : Forall (fun p => fst p < length ns /\ shape (snd p) = [nth (fst p) ns 0; nth (fst p) ns 0]) term ->
  exists mods, mod_term_of shapes vec term = Ok mods /\ Forall2 mean_of term mods.
Proof.
  induction term as [|[j h] term IH]; intros F; cbn [mod_term_of mapM]; [exists []; auto|]. inversion F as [|? ? (Hj & Eh) F']; subst. cbn [fst snd] in *.
  destruct (IH F') as (mods & Em & R). unfold mod_term_of in *. cbn [mapM]. cbn [fst snd]. rewrite sub_C by auto. cbn [bind].
  destruct (C_at j Hj) as (W & Es & Ec & Re). destruct (mod_ok h (nth j Cs noarr) (nth j ns 0) (nth j ms 0) Eh Es) as (w & Ew & Ww & Sw & Vw). rewrite Ew. cbn [bind]. rewrite Em. cbn [bind].
  eexists. split; [reflexivity|]. constructor; auto. unfold mean_of. cbn [fst snd]. repeat split; auto. intros a b Ha Hb. rewrite Vw by auto.
  rewrite (two_parts_real _ (nth j ms 0)); auto; [now rewrite Ec|]. intros x y Hx Hy. apply Re. rewrite Es. apply in_range2; auto.
Qed.
Lemma mods_axes term mods : Forall2 mean_of term mods -> map fst mods = map fst term.
Proof. intros F. induction F as [|p q term mods (E & _) F IH]; cbn; auto. now rewrite IH, E. Qed.
Lemma find_mods j term mods : Forall2 mean_of term mods ->
  match find_axis j term, find_axis j mods with
  | None, None => True
  | Some p, Some q => fst p = j /\ mean_of p q
  | _, _ => False
  end.
Proof.
  intros F. unfold find_axis. induction F as [|p q term mods M F IH]; cbn [find]; auto. destruct M as (E & M). rewrite E. destruct (fst p =? j) eqn:X; auto. split; [now apply Nat.eqb_eq|]. split; auto.
Qed.
Lemma mods_fit term mods sh : Forall2 mean_of term mods -> length sh = length ns ->
  (forall j, In j (map fst term) -> nth j sh 0 = nth j ms 0 /\ equal_after j sh) -> Forall (op_fits sh) mods.
Proof.
  intros F L. induction F as [|p q term mods (E & Hj & W & Es & V) F IH]; intros H; constructor.
  - destruct (H (fst p)) as (X & EA); [cbn; auto|]. unfold op_fits. rewrite E, X. repeat split; auto; [lia|apply pos_at; auto].
  - apply IH. intros j Ij. apply H. cbn. auto.
Qed.

Definition ident : list cmat := map (fun _ => delta) ms.
Lemma L_ident : length ident = length ns.
Proof. unfold ident. rewrite map_length. apply L_ms. Qed.
Lemma nth_ident j : j < length ns -> nth j ident nomat = delta.
Proof. intros Hj. unfold ident. rewrite (nth_indep _ _ ((fun _ : nat => @delta C_star) 0)) by (rewrite map_length, L_ms; auto). apply (map_nth (fun _ : nat => @delta C_star) ms 0 j). Qed.
Lemma A_psi x : in_range x ms -> get A x = psi ident ms (get A) x.
Proof. intros R. unfold psi, ident. rewrite kron_delta; auto. Qed.
Lemma comp_delta q (M : cmat) a b : b < q -> comp q M delta a b = M a b.
Proof. intros Hb. unfold comp. rewrite (sumn_single _ _ b); auto; [unfold delta; rewrite Nat.eqb_refl; ring|]. intros k Hk N. unfold delta. apply Nat.eqb_neq in N. rewrite N. ring. Qed.
Lemma comp_delta_l q (M : cmat) a b : a < q -> comp q delta M a b = M a b.
Proof. intros Hb. unfold comp. rewrite (sumn_single _ _ a); auto; [unfold delta; rewrite Nat.eqb_refl; ring|]. intros k Hk N. unfold delta. replace (a =? k) with false by (symmetry; apply Nat.eqb_neq; auto). ring. Qed.
Lemma comp_ext q (M M' N N' : cmat) a b : (forall k, k < q -> M a k = M' a k) -> (forall k, k < q -> N k b = N' k b) -> comp q M N a b = comp q M' N' a b.
Proof. intros H1 H2. apply sumn_ext. intros k Hk. now rewrite H1, H2. Qed.

Definition ops (term : cterm) : list cmat := map (op_at term) (seq 0 (length ns)).
Lemma L_ops term : length (ops term) = length ns.
Proof. unfold ops. now rewrite map_length, seq_length. Qed.
Lemma nth_ops term j : j < length ns -> nth j (ops term) nomat = op_at term j.
Proof. intros Hj. unfold ops. rewrite (nth_indep _ _ (op_at term 0)) by (rewrite map_length, seq_length; auto). rewrite map_nth, seq_nth by auto. reflexivity. Qed.

(** the scalar products with the Hamiltonian applied to the state *)
Lemma apply_psi term n : length n = length ns -> apply_term ns term (psi cs ms (get A)) n = psi (comps ns (ops term) cs) ms (get A) n.
Proof. intros Ln. unfold apply_term. apply psi_comp; auto; [apply L_ops|apply L_cs|apply L_ms]. Qed.

(** ** The tensor *)
Lemma coeff_part term mods : well_formed ns term -> readable ns ms term -> Forall2 mean_of term mods ->
  exists B, coeff_op A mods = Ok B /\ part_ok ms B /\
  forall m, in_range m ms -> get B m = sumL (indices ns) (fun n => rmul (rconj (kron cs n m)) (apply_term ns term (psi cs ms (get A)) n)).
Proof.
  intros (ND & WF) (R1 & R2) F. destruct HA as (WA & SA).
  destruct (coeff_ok ms (get A) ms mods A ident) as (B & EB & WB & SB & VB); auto.
  - rewrite L_ident. symmetry. apply L_ms.
  - intros x R. apply A_psi. auto.
  - apply (mods_fit term mods ms F); [apply L_ms|]. intros j Ij. auto.
  - exists B. split; [exact EB|]. split; [split; auto|]. intros m Rm. rewrite VB by auto.
    pose proof (in_range_len _ _ Rm) as Lm.
    transitivity (sumL (indices ns) (fun n => rmul (kron (map adj cs) m n) (psi (comps ns (ops term) cs) ms (get A) n))).
    2:{ apply sumL_ext_in. intros n Hn. apply in_indices, in_range_len in Hn. rewrite kron_conj, apply_psi by auto. reflexivity. }
    assert (L1 := L_ops term). assert (L2 := L_cs). assert (L3 := L_ms). assert (L4 : length (comps ns (ops term) cs) = length ns) by (apply length_comps; auto).
    assert (L5 : length (map adj cs) = length ns) by (rewrite map_length; auto).
    rewrite psi_comp by (auto; lia). apply (psi_ext ms ms); auto.
    + rewrite length_fold, L_ident. auto.
    + rewrite length_comps; auto.
    + intros j a b Hj Ha Hb. rewrite L3 in Hj. rewrite nth_fold by (rewrite ?(mods_axes term mods F), ?L_ident; auto). rewrite nth_ident by auto.
      rewrite (nth_comps _ _ _ _ _ nomat nomat) by auto. rewrite (nth_comps _ _ _ _ _ nomat nomat) by auto. rewrite nth_ops by auto. unfold op_at.
      rewrite (nth_indep _ nomat (adj nomat)) by lia. rewrite map_nth.
      pose proof (find_mods j term mods F) as FM. change (find (fun p : nat * arr C_star => fst p =? j) term) with (find_axis j term). destruct (find_axis j term) as [[k h]|], (find_axis j mods) as [[k' h']|]; try contradiction.
      * destruct FM as (<- & M). destruct M as (_ & _ & _ & _ & V). cbn [fst snd] in *. rewrite comp_delta by auto. unfold entries at 1. rewrite V by auto. reflexivity.
      * rewrite <- (Horth j Hj a b Ha Hb). unfold comp at 1. apply sumn_ext. intros x Hx. unfold adj. f_equal. rewrite comp_delta_l by auto. reflexivity.
Qed.

(** ** The matrices *)
Lemma filter_one i : forall term : cterm, NoDup (map fst term) -> filter (fun p => fst p =? i) term = match find_axis i term with Some p => [p] | None => [] end.
Proof.
  unfold find_axis. induction term as [|[k h] term IH]; intros ND; cbn [filter find fst]; auto. cbn [map fst] in ND. inversion ND as [|? ? N ND']; subst. destruct (k =? i) eqn:E; auto.
  apply Nat.eqb_eq in E. subst k. rewrite IH by auto. fold (find_axis i term). now rewrite find_not_in.
Qed.
Lemma find_rest i j : forall term : cterm, find_axis j (filter (fun p => negb (fst p =? i)) term) = if j =? i then None else find_axis j term.
Proof.
  unfold find_axis. induction term as [|[k h] term IH]; cbn [filter find fst]; [now destruct (j =? i)|]. destruct (k =? i) eqn:E; cbn [negb].
  - rewrite IH. destruct (j =? i) eqn:E2; auto. apply Nat.eqb_eq in E. subst k. rewrite Nat.eqb_sym, E2. reflexivity.
  - cbn [find fst]. rewrite IH. destruct (j =? i) eqn:E2; auto. apply Nat.eqb_eq in E2. subst j. now rewrite E.
Qed.
Lemma NoDup_rest i (term : cterm) : NoDup (map fst term) -> NoDup (map fst (filter (fun p => negb (fst p =? i)) term)).
Proof.
  induction term as [|[k h] term IH]; cbn [map filter fst]; intros ND; auto. inversion ND as [|? ? N ND']; subst. destruct (k =? i); cbn [negb map fst]; auto. constructor; auto.
  intros I. apply N. apply in_map_iff in I. destruct I as (p & E & I). apply filter_In in I. apply in_map_iff. exists p. tauto.
Qed.
Lemma find_in i (term : cterm) p : find_axis i term = Some p -> In p term /\ fst p = i.
Proof. intros E. apply find_some in E. destruct E as (I & E). apply Nat.eqb_eq in E. auto. Qed.

Lemma after_upd i n sh : equal_after i (upd i n sh) <-> equal_after i sh.
Proof.
  unfold equal_after. destruct (Nat.lt_ge_cases i (length sh)) as [Hi|Hi].
  - replace (skipn (S i) (upd i n sh)) with (skipn (S i) sh); [tauto|]. unfold upd. replace (i <? length sh) with true by (symmetry; apply Nat.ltb_lt; auto).
    assert (Lf : length (firstn i sh) = i) by (rewrite firstn_length; lia). rewrite skipn_app, Lf. rewrite (skipn_all2 (firstn i sh)) by lia. replace (S i - i) with 1 by lia. reflexivity.
  - unfold upd. replace (i <? length sh) with false by (symmetry; apply Nat.ltb_ge; auto). tauto.
Qed.

(** [T] is the tensor with the matrix, its operator and the mean fields of the others applied. *)
Definition with_others (i : nat) (h : carr) (mods : cterm) : list cmat :=
  fold_ops (upd i (nth i ns 0) ms) (filter (fun p => negb (fst p =? i)) mods)
    (fold_ops (upd i (nth i ns 0) ms) [(i, h)] (upd i (comp (nth i ms 0) (nth i cs nomat) (nth i ident nomat)) ident)).
Lemma transformed term mods i h : well_formed ns term -> readable ns ms term -> Forall2 mean_of term mods -> i < length ns -> find_axis i term = Some (i, h) ->
  exists T0 T1 T, partial_transform i A (nth i Cs noarr) = Ok T0 /\ coeff_op T0 [(i, h)] = Ok T1 /\ coeff_op T1 (filter (fun p => negb (fst p =? i)) mods) = Ok T /\
  wf T /\ shape T = upd i (nth i ns 0) ms /\ forall x, in_range x (shape T) -> get T x = psi (with_others i h mods) ms (get A) x.
Proof.
  intros (ND & WF) (R1 & R2) F Hi Fi. destruct HA as (WA & SA). destruct (C_at i Hi) as (WC & SC & EC & _). destruct (pos_at i Hi) as (Pn & Pm).
  assert (I : In (i, h) term) by (apply (find_in i); auto). assert (Ii : In i (map fst term)) by (apply in_map_iff; exists (i, h); auto).
  assert (L3 := L_ms). assert (LI := L_ident).
  destruct (C45_transform C_star i A (nth i Cs noarr) (nth i ns 0) (nth i ms 0)) as (T0 & E0 & W0 & S0 & V0); auto; [rewrite SA; lia|now rewrite SA|rewrite SA; auto|]. rewrite SA in S0.
  set (sh := upd i (nth i ns 0) ms) in *. assert (Lsh : length sh = length ms) by apply length_upd.
  assert (Ni : nth i sh 0 = nth i ns 0) by (apply nth_upd_eq; lia).
  destruct (coeff_ok ms (get A) sh [(i, h)] T0 (upd i (comp (nth i ms 0) (nth i cs nomat) (nth i ident nomat)) ident)) as (T1 & E1 & W1 & S1 & V1); auto.
  - rewrite length_upd. lia.
  - intros x R. rewrite V0 by congruence. rewrite EC. rewrite <- axis_psi; [|lia|rewrite (in_range_len _ _ R); lia|lia].
    unfold on_axis. apply sumn_ext. intros k Hk. f_equal. apply A_psi. apply (in_range_upd_back i k (nth i ns 0)); auto.
  - constructor; auto. rewrite Forall_forall in WF. specialize (WF _ I). unfold op_fits. cbn [fst snd] in *. rewrite Ni. repeat split; auto; [lia|tauto|]. apply after_upd. auto.
  - destruct (fun X1 X2 => coeff_ok ms (get A) sh (filter (fun p => negb (fst p =? i)) mods) T1 _ W1 S1 X1 X2 V1) as (T & E & W & S2 & V); auto.
    + rewrite length_fold, length_upd. lia.
    + apply Forall_forall. intros p Ip. apply filter_In in Ip. destruct Ip as (Ip & Np). destruct (fst p =? i) eqn:X; [discriminate|]. apply Nat.eqb_neq in X.
      assert (Ia : In (fst p) (map fst term)) by exact (eq_ind _ (fun l => In (fst p) l) (in_map fst _ _ Ip) _ (mods_axes _ _ F)).
      assert (M : exists p0, In p0 term /\ mean_of p0 p).
      { clear - F Ip. induction F as [|p0 q term mods M F IH]; cbn in Ip; [contradiction|]. destruct Ip as [<-|Ip]; [exists p0; cbn; auto|]. destruct (IH Ip) as (p1 & I1 & M1). exists p1. cbn. auto. }
      destruct M as (p0 & _ & (Ep & Hp & Wp & Sp & _)). unfold op_fits. destruct p as [j w], p0 as [j0 h0]. cbn [fst snd] in *. subst j0. assert (Nj : nth j sh 0 = nth j ms 0) by (apply nth_upd_neq; auto). rewrite Nj.
      repeat split; auto; [lia|apply pos_at; auto|]. apply R2; auto.
    + exists T0, T1, T. repeat split; auto. intros x R. apply V. congruence.
Qed.

Lemma sumn_sub n (f g : nat -> C_star) : sumn n (fun x => rsub (f x) (g x)) = rsub (sumn n f) (sumn n g).
Proof. apply sumL_sub. Qed.
Lemma del_upd i (x : nat) l : i < length l -> del i (upd i x l) = del i l.
Proof. intros Hi. rewrite upd_eq by auto. apply del_ins. rewrite length_del; lia. Qed.
Lemma proj_left n m (C Y : cmat) (g : nat -> C_star) q :
  sumn n (fun x => rmul (g x) (sumn n (fun k => rmul (radd (delta x k) (rmul (ropp r1) (sumn m (fun c => rmul (C x c) (rconj (C k c)))))) (Y k q))))
  = rsub (sumn n (fun x => rmul (g x) (Y x q))) (sumn m (fun c => rmul (sumn n (fun x => rmul (g x) (C x c))) (sumn n (fun k => rmul (rconj (C k c)) (Y k q))))).
Proof.
  transitivity (sumn n (fun x => rsub (rmul (g x) (Y x q)) (rmul (g x) (sumn n (fun k => sumn m (fun c => rmul (C x c) (rmul (rconj (C k c)) (Y k q)))))))).
  - apply sumn_ext. intros x Hx. 
    replace (sumn n (fun k => rmul (radd (delta x k) (rmul (ropp r1) (sumn m (fun c => rmul (C x c) (rconj (C k c)))))) (Y k q)))
      with (rsub (sumn n (fun k => rmul (delta x k) (Y k q))) (sumn n (fun k => sumn m (fun c => rmul (C x c) (rmul (rconj (C k c)) (Y k q)))))).
    + pose proof (comp_delta_l n Y x q Hx) as E. unfold comp in E. rewrite E. ring.
    + rewrite <- sumn_sub. apply sumn_ext. intros k Hk.
      replace (sumn m (fun c => rmul (C x c) (rmul (rconj (C k c)) (Y k q)))) with (rmul (sumn m (fun c => rmul (C x c) (rconj (C k c)))) (Y k q)); [ring|].
      rewrite <- sumn_scal_r. apply sumn_ext. intros. ring.
  - rewrite sumn_sub. f_equal.
    transitivity (sumn n (fun x => sumn m (fun c => rmul (rmul (g x) (C x c)) (sumn n (fun k => rmul (rconj (C k c)) (Y k q)))))).
    + apply sumn_ext. intros x Hx. rewrite sumn_swap, <- sumn_scal_l. apply sumn_ext. intros c Hc. rewrite sumn_scal_l. ring.
    + rewrite sumn_swap. apply sumn_ext. intros c Hc. apply sumn_scal_r.
Qed.

(** The density matrix plus a multiple of one has an inverse, and [inv] finds it. *)
Variable inv : carr -> res carr.
Variable err : C_star.
Definition shifted_density (i : nat) (M : carr) : Prop :=
  wf M /\ shape M = [nth i ms 0; nth i ms 0] /\ forall p q, p < nth i ms 0 -> q < nth i ms 0 -> get M [p; q] = radd (density ms (get A) i p q) (rmul err (delta p q)).
Definition finds_inverse (i : nat) : Prop := forall M, shifted_density i M -> exists N, inv M = Ok N /\ shape N = [nth i ms 0; nth i ms 0] /\
  forall p q, p < nth i ms 0 -> q < nth i ms 0 -> sumn (nth i ms 0) (fun k => rmul (get N [p; k]) (get M [k; q])) = delta p q.

(** what [_sp_op] computes *)
Lemma sp_value term mods i h : well_formed ns term -> readable ns ms term -> Forall2 mean_of term mods -> i < length ns -> finds_inverse i -> find_axis i term = Some (i, h) ->
  exists D T N R, sp_op inv err shapes vec i (nth i Cs noarr) [h] mods = Ok D /\ part_ok [nth i ns 0; nth i ms 0] D /\
    (forall x, in_range x (upd i (nth i ns 0) ms) -> T x = psi (with_others i h mods) ms (get A) x) /\
    shifted_density i R /\ (forall p q, p < nth i ms 0 -> q < nth i ms 0 -> sumn (nth i ms 0) (fun k => rmul (get N [p; k]) (get R [k; q])) = delta p q) /\
    forall x q, x < nth i ns 0 -> q < nth i ms 0 -> get D [x; q]
      = sumn (nth i ns 0) (fun k => rmul (radd (delta x k) (rmul (ropp r1) (sumn (nth i ms 0) (fun c => rmul (nth i cs nomat x c) (rconj (nth i cs nomat k c))))))
          (sumn (nth i ms 0) (fun p => rmul (sumL (indices (del i ms)) (fun r => rmul (T (ins i k r)) (rconj (get A (ins i p r))))) (get N [p; q])))).
Proof.
  intros WT RT F Hi FI Fi. destruct (transformed term mods i h WT RT F Hi Fi) as (T0 & T1 & T & E0 & E1 & E2 & W & Sh & V).
  destruct HA as (WA & SA). destruct (C_at i Hi) as (WC & SC & EC & _). destruct (pos_at i Hi) as (Pn & Pm). assert (L3 := L_ms).
  assert (WH : wf (arr_conj A)) by (apply wf_conj; auto). assert (SH : shape (arr_conj A) = ms) by exact SA.
  destruct (partial_trace_ok C_star A i (arr_conj A) i) as (dens & Ed & Wd & Sd & Vd); auto; try (unfold ndim; rewrite ?SH, ?SA; lia); try (rewrite ?SH, ?SA; auto). rewrite SA, SH in Sd, Vd.
  unfold sp_op. rewrite SC. rewrite sub_A. cbn [bind]. unfold mctdh_partial_product. rewrite Ed. cbn [bind].
  set (m := nth i ms 0) in *. set (n := nth i ns 0) in *.
  rewrite arr_add_ok; [|auto|apply wf_scale, wf_build|rewrite Sd; reflexivity]. cbn [bind].
  set (R := build (shape dens) _). assert (SR : shifted_density i R).
  { unfold R. repeat split; [apply wf_build|exact Sd|]. fold m. intros p q Hp Hq. rewrite get_build by (rewrite Sd; apply in_range2; auto). rewrite Vd by auto. rewrite get_scale, get_eye by auto. f_equal.
    unfold density. apply sumL_ext. intros r. now rewrite get_conj. }
  destruct (FI R SR) as (N & EN & SN & VN). fold m in SN, VN. rewrite EN. cbn [bind]. rewrite sub_C by auto. cbn [bind].
  rewrite (matmul_ok _ (nth i Cs noarr) _ n m n) by (auto; apply (shape_T _ n m); auto). cbn [bind].
  rewrite arr_add_ok; [|apply wf_build|apply wf_scale, wf_build|reflexivity]. cbn [bind].
  rewrite E0. cbn [bind]. change (map (fun h0 => (i, h0)) [h]) with [(i, h)]. rewrite E1. cbn [bind]. rewrite E2. cbn [bind].
  assert (Ni : nth i (shape T) 0 = n) by (rewrite Sh; apply nth_upd_eq; lia).
  assert (Dl : del i (shape T) = del i ms) by (rewrite Sh; apply del_upd; lia).
  destruct (partial_trace_ok C_star T i (arr_conj A) i) as (X & EX & WX & SX & VX); auto; try (unfold ndim; rewrite ?SH, ?Sh, ?length_upd; lia); try (rewrite ?SH, ?Ni, ?Dl; auto).
  rewrite Ni, SH in SX, VX. rewrite Dl in VX. rewrite EX. cbn [bind]. fold m in SX, VX. rewrite (matmul_ok _ X N n m m) by auto. cbn [bind].
  rewrite (matmul_ok _ _ _ n n m) by reflexivity. eexists. exists (get T), N, R. split; [reflexivity|]. split; [split; [apply wf_build|reflexivity]|].
  split; [intros x Rx; apply V; congruence|]. split; [exact SR|]. split; [exact VN|].
  intros x q Hx Hq. rewrite get_build by (apply in_range2; auto). cbn [nth]. apply sumn_ext. intros k Hk. rewrite !get_build by (apply in_range2; auto). cbn [nth]. f_equal.
  - rewrite get_scale, get_eye by auto. rewrite get_build by (apply in_range2; auto). cbn [nth]. do 2 f_equal. apply sumn_ext. intros c Hc. rewrite get_conj, (get_T _ n m) by auto. rewrite EC. reflexivity.
  - apply sumn_ext. intros p Hp. rewrite VX by auto. f_equal. apply sumL_ext. intros r. now rewrite get_conj.
Qed.

Lemma upd_ins i (x y : nat) l : i <= length l -> upd i x (ins i y l) = ins i x l.
Proof. intros Hi. rewrite upd_eq by (rewrite length_ins; lia). rewrite del_ins; auto. Qed.
Lemma braket_axis i k (L : cmat) (f T : list nat -> C_star) : i < length ms ->
  braket ms f (on_axis i k L T) = sumn (nth i ms 0) (fun q => sumn k (fun x => rmul (L q x) (sumL (indices (del i ms)) (fun r => rmul (T (ins i x r)) (rconj (f (ins i q r))))))).
Proof.
  intros Hi. unfold braket. rewrite (sum_indices_del _ i ms) by auto. apply sumn_ext. intros q Hq.
  transitivity (sumL (indices (del i ms)) (fun r => sumn k (fun x => rmul (L q x) (rmul (T (ins i x r)) (rconj (f (ins i q r))))))).
  - apply sumL_ext_in. intros r Hr. apply in_indices, in_range_len in Hr. rewrite length_del in Hr by auto. unfold on_axis. rewrite nth_ins_eq by lia. rewrite <- sumn_scal_l. apply sumn_ext. intros x Hx.
    rewrite upd_ins by lia. ring.
  - unfold sumn. rewrite sumL_swap. apply sumL_ext. intros x. apply sumL_scal_l.
Qed.
Lemma braket_ext_r (f g g' : list nat -> C_star) sh : (forall x, in_range x sh -> g x = g' x) -> braket sh f g = braket sh f g'.
Proof. intros H. apply sumL_ext_in. intros x Hx. apply in_indices in Hx. now rewrite H. Qed.

Lemma nth_adj_upd i F j : i < length ns -> j < length ns -> nth j (map adj (upd i F cs)) nomat = adj (if j =? i then F else nth j cs nomat).
Proof.
  intros Hi Hj. assert (L2 := L_cs). rewrite (nth_indep _ nomat (adj nomat)) by (rewrite map_length, length_upd; lia). rewrite map_nth. f_equal.
  destruct (j =? i) eqn:E; [apply Nat.eqb_eq in E; subst; apply nth_upd_eq; lia|]. apply Nat.eqb_neq in E. apply nth_upd_neq. auto.
Qed.

Lemma braket_varied i F G : i < length ns ->
  braket ns (varied ms cs (get A) i F) (varied ms cs (get A) i G)
  = sumn (nth i ms 0) (fun q => sumn (nth i ms 0) (fun p => rmul (sumn (nth i ns 0) (fun x => rmul (rconj (F x q)) (G x p))) (density ms (get A) i p q))).
Proof.
  intros Hi. assert (L2 := L_cs). assert (L3 := L_ms). assert (LI := L_ident). unfold varied. rewrite braket_psi_psi by (rewrite ?length_upd; auto).
  transitivity (braket ms (get A) (on_axis i (nth i ms 0) (comp (nth i ns 0) (adj F) G) (get A))).
  2:{ rewrite braket_axis by lia. reflexivity. }
  apply braket_ext_r. intros x Rx. pose proof (in_range_len _ _ Rx) as Lx.
  transitivity (on_axis i (nth i ms 0) (comp (nth i ns 0) (adj F) G) (psi ident ms (get A)) x).
  - rewrite axis_psi by lia. apply (psi_ext ms ms); auto.
    + rewrite length_comps; rewrite ?map_length, ?length_upd; auto.
    + rewrite length_upd; lia.
    + intros j a b Hj Ha Hb. rewrite L3 in Hj. rewrite (nth_comps _ _ _ _ _ nomat nomat) by (rewrite ?map_length, ?length_upd; auto). rewrite nth_adj_upd by auto.
      destruct (j =? i) eqn:E.
      * apply Nat.eqb_eq in E. subst j. rewrite !nth_upd_eq by lia. rewrite nth_ident by auto. rewrite comp_delta by auto. reflexivity.
      * apply Nat.eqb_neq in E. rewrite !nth_upd_neq by auto. rewrite nth_ident by auto. apply (Horth j Hj a b Ha Hb).
  - unfold on_axis. apply sumn_ext. intros k Hk. f_equal. symmetry. apply A_psi. apply in_range_upd_same; auto.
Qed.

Lemma braket_ham i F term : i < length ns ->
  braket ns (varied ms cs (get A) i F) (apply_term ns term (psi cs ms (get A))) = braket ms (get A) (psi (comps ns (map adj (upd i F cs)) (comps ns (ops term) cs)) ms (get A)).
Proof.
  intros Hi. assert (L2 := L_cs). assert (L3 := L_ms). assert (L1 := L_ops term). unfold varied.
  rewrite (braket_ext_r _ _ (psi (comps ns (ops term) cs) ms (get A))) by (intros x Rx; apply apply_psi, in_range_len, Rx).
  apply braket_psi_psi; auto; [now rewrite length_upd|]. apply length_comps; auto.
Qed.

(** the variation keeps away from an axis without an operator *)
Lemma ham_no_axis i F term : i < length ns -> find_axis i term = None -> orthogonal (nth i ns 0) (nth i ms 0) (nth i cs nomat) F ->
  braket ns (varied ms cs (get A) i F) (apply_term ns term (psi cs ms (get A))) = r0.
Proof.
  intros Hi Fi O. assert (L2 := L_cs). assert (L3 := L_ms). assert (L1 := L_ops term). rewrite braket_ham by auto.
  set (Ms := comps ns _ _). assert (LM : length Ms = length ns) by (unfold Ms; rewrite length_comps; rewrite ?map_length, ?length_upd, ?length_comps; auto).
  rewrite (braket_ext_r _ _ (fun _ => r0)).
  - unfold braket. apply sumL_zero_in. intros. ring.
  - intros x Rx. pose proof (in_range_len _ _ Rx) as Lx. transitivity (on_axis i 0 nomat (psi Ms ms (get A)) x); [|reflexivity].
    rewrite axis_psi by lia. apply (psi_ext ms ms); auto; [lia|rewrite length_upd; lia|]. intros j a b Hj Ha Hb. destruct (Nat.eq_dec j i) as [->|N].
    + rewrite nth_upd_eq by lia. unfold Ms. rewrite (nth_comps _ _ _ _ _ nomat nomat) by (rewrite ?map_length, ?length_upd, ?length_comps; auto).
      rewrite (nth_comps _ _ _ _ _ nomat nomat) by auto. rewrite nth_adj_upd, Nat.eqb_refl, nth_ops by auto. unfold op_at.
      change (find (fun p : nat * arr C_star => fst p =? i) term) with (find_axis i term). rewrite Fi. unfold comp at 3. rewrite sumn_0.
      rewrite <- (rconj_0 C_star). rewrite <- (O b a Hb Ha). rewrite rconj_sumn. unfold comp at 1. apply sumn_ext. intros y Hy. rewrite comp_delta_l by auto. unfold adj. rewrite rconj_mul, rconj_invol. ring.
    + rewrite nth_upd_neq by auto. reflexivity.
Qed.

Lemma others_at i h mods j : i < length ns -> j < length ns -> NoDup (map fst (filter (fun p => negb (fst p =? i)) mods)) ->
  nth j (with_others i h mods) nomat = if j =? i then comp (nth i ns 0) (entries h) (comp (nth i ms 0) (nth i cs nomat) delta)
    else match find_axis j mods with Some (_, w) => comp (nth j ms 0) (entries w) delta | None => delta end.
Proof.
  intros Hi Hj ND. assert (L3 := L_ms). assert (LI := L_ident). unfold with_others. rewrite nth_fold by (auto; rewrite length_fold, length_upd; lia). rewrite find_rest.
  cbn [fold_ops]. destruct (j =? i) eqn:E.
  - apply Nat.eqb_eq in E. subst j. rewrite !nth_upd_eq by (rewrite ?length_upd; lia). rewrite nth_ident by auto. reflexivity.
  - apply Nat.eqb_neq in E. rewrite !nth_upd_neq by auto. rewrite nth_ident by auto. reflexivity.
Qed.
Lemma ham_axis i F term mods h : well_formed ns term -> Forall2 mean_of term mods -> i < length ns -> find_axis i term = Some (i, h) ->
  forall T, (forall x, in_range x (upd i (nth i ns 0) ms) -> T x = psi (with_others i h mods) ms (get A) x) ->
  braket ns (varied ms cs (get A) i F) (apply_term ns term (psi cs ms (get A)))
  = sumn (nth i ms 0) (fun q => sumn (nth i ns 0) (fun x => rmul (rconj (F x q)) (sumL (indices (del i ms)) (fun r => rmul (T (ins i x r)) (rconj (get A (ins i q r))))))).
Proof.
  intros (ND & WF) FM Hi Fi T HT. assert (L2 := L_cs). assert (L3 := L_ms). assert (L1 := L_ops term). assert (LI := L_ident). rewrite braket_ham by auto.
  set (Ms := comps ns _ _). assert (LM : length Ms = length ns) by (unfold Ms; rewrite length_comps; rewrite ?map_length, ?length_upd, ?length_comps; auto).
  set (WO := with_others i h mods) in *. assert (LW : length WO = length ns) by (unfold WO, with_others; rewrite !length_fold, length_upd; lia).
  transitivity (braket ms (get A) (on_axis i (nth i ns 0) (adj F) T)); [|rewrite braket_axis by lia; reflexivity].
  apply braket_ext_r. intros x Rx. pose proof (in_range_len _ _ Rx) as Lx.
  transitivity (on_axis i (nth i ns 0) (adj F) (psi WO ms (get A)) x).
  2:{ unfold on_axis. apply sumn_ext. intros k Hk. f_equal. symmetry. apply HT. apply in_range_upd; auto. }
  rewrite axis_psi by lia. apply (psi_ext ms ms); auto; [lia|rewrite length_upd; lia|]. intros j a b Hj Ha Hb. rewrite L3 in Hj.
  unfold Ms. rewrite (nth_comps _ _ _ _ _ nomat nomat) by (rewrite ?map_length, ?length_upd, ?length_comps; auto). rewrite (nth_comps _ _ _ _ _ nomat nomat) by auto. rewrite nth_adj_upd, nth_ops by auto.
  assert (NDm : NoDup (map fst (filter (fun p => negb (fst p =? i)) mods))) by (apply NoDup_rest; exact (eq_ind_r (fun l => NoDup l) ND (mods_axes _ _ FM))).
  assert (NW := others_at i h mods j Hi Hj NDm). fold WO in NW. unfold op_at. change (find (fun p : nat * arr C_star => fst p =? j) term) with (find_axis j term). destruct (j =? i) eqn:E.
  - apply Nat.eqb_eq in E. subst j. rewrite Fi. rewrite nth_upd_eq by lia. apply comp_ext; [reflexivity|]. intros k Hk. rewrite NW. apply comp_ext; [reflexivity|]. intros y Hy. rewrite comp_delta by auto. reflexivity.
  - apply Nat.eqb_neq in E. rewrite nth_upd_neq by auto. rewrite NW. pose proof (find_mods j term mods FM) as X. destruct (find_axis j term) as [[k w]|], (find_axis j mods) as [[k' w']|]; try contradiction.
    + destruct X as (<- & M). destruct M as (_ & _ & _ & _ & V). cbn [fst snd] in *. rewrite comp_delta by auto. unfold entries. rewrite V by auto. reflexivity.
    + rewrite <- (Horth j Hj a b Ha Hb). unfold comp at 1. apply sumn_ext. intros y Hy. unfold adj. f_equal. rewrite comp_delta_l by auto. reflexivity.
Qed.

Lemma sp_part term mods i : well_formed ns term -> readable ns ms term -> Forall2 mean_of term mods -> i < length ns -> finds_inverse i ->
  exists D, sp_op inv err shapes vec i (nth i Cs noarr) (map snd (filter (fun p => fst p =? i) term)) mods = Ok D /\ part_ok [nth i ns 0; nth i ms 0] D /\
  orthogonal (nth i ns 0) (nth i ms 0) (nth i cs nomat) (entries D) /\
  forall F, orthogonal (nth i ns 0) (nth i ms 0) (nth i cs nomat) F ->
    radd (braket ns (varied ms cs (get A) i F) (varied ms cs (get A) i (entries D))) (rmul err (frobenius (nth i ns 0) (nth i ms 0) F (entries D)))
    = braket ns (varied ms cs (get A) i F) (apply_term ns term (psi cs ms (get A))).
Proof.
  intros WT RT FM Hi FI. destruct (C_at i Hi) as (WC & SC & EC & _). rewrite filter_one by apply WT. destruct (find_axis i term) as [[k h]|] eqn:Fi.
  - assert (k = i) by (apply find_in in Fi; tauto). subst k. cbn [map snd].
    destruct (sp_value term mods i h WT RT FM Hi FI Fi) as (D & T & N & R & ED & PD & HT & (WR & SR & VR) & VN & VD). exists D. split; [exact ED|]. split; [exact PD|].
    set (n := nth i ns 0) in *. set (m := nth i ms 0) in *. set (C := nth i cs nomat) in *. assert (OC := Horth i Hi). fold n m C in OC.
    set (X := fun x q => sumL (indices (del i ms)) (fun r => rmul (T (ins i x r)) (rconj (get A (ins i q r))))).
    set (Y := fun x q => sumn m (fun p => rmul (X x p) (get N [p; q]))).
    assert (G : forall (g : nat -> C_star) q, q < m -> sumn n (fun x => rmul (g x) (entries D x q))
      = rsub (sumn n (fun x => rmul (g x) (Y x q))) (sumn m (fun c => rmul (sumn n (fun x => rmul (g x) (C x c))) (sumn n (fun k => rmul (rconj (C k c)) (Y k q)))))).
    { intros g q Hq. rewrite <- proj_left. apply sumn_ext. intros x Hx. f_equal. apply VD; auto. }
    split.
    + intros p q Hp Hq. rewrite (G (fun x => rconj (C x p)) q Hq). rewrite (sumn_single _ m p); auto.
      2:{ intros c Hc Nc. rewrite (OC p c Hp Hc). unfold delta. replace (p =? c) with false by (symmetry; apply Nat.eqb_neq; auto). ring. }
      rewrite (OC p p Hp Hp). unfold delta. rewrite Nat.eqb_refl. ring.
    + intros F OF. rewrite (ham_axis i F term mods h WT FM Hi Fi T HT). rewrite braket_varied by auto. fold n m.
      assert (GF : forall p q, p < m -> q < m -> sumn n (fun x => rmul (rconj (F x p)) (entries D x q)) = sumn n (fun x => rmul (rconj (F x p)) (Y x q))).
      { intros p q Hp Hq. rewrite (G (fun x => rconj (F x p)) q Hq). rewrite (sumn_zero _ m); [ring|]. intros c Hc.
        replace (sumn n (fun x => rmul (rconj (F x p)) (C x c))) with (r0 : C_star); [ring|]. rewrite <- (rconj_0 C_star), <- (OF c p Hc Hp), rconj_sumn. apply sumn_ext. intros. rewrite rconj_mul, rconj_invol. ring. }
      assert (EF : frobenius n m F (entries D) = sumn m (fun q => sumn m (fun p => rmul (sumn n (fun x => rmul (rconj (F x q)) (entries D x p))) (delta p q)))).
      { unfold frobenius. rewrite sumn_swap. apply sumn_ext. intros q Hq. rewrite (sumn_single _ m q); auto.
        - unfold delta. rewrite Nat.eqb_refl. ring.
        - intros p Hp Np. unfold delta. apply Nat.eqb_neq in Np. rewrite Np. ring. }
      rewrite EF. rewrite <- sumn_scal_l, <- sumn_add. apply sumn_ext. intros q Hq. rewrite <- sumn_scal_l, <- sumn_add.
      transitivity (sumn m (fun p => rmul (sumn n (fun x => rmul (rconj (F x q)) (Y x p))) (get R [p; q]))).
      { apply sumn_ext. intros p Hp. rewrite VR by auto. rewrite GF by auto. ring. }
      transitivity (sumn m (fun p => sumn n (fun x => sumn m (fun c => rmul (rmul (rconj (F x q)) (X x c)) (rmul (get N [c; p]) (get R [p; q])))))).
      { apply sumn_ext. intros p Hp. rewrite <- sumn_scal_r. apply sumn_ext. intros x Hx. unfold Y. rewrite <- sumn_scal_l, <- sumn_scal_r. apply sumn_ext. intros. ring. }
      rewrite sumn_swap. apply sumn_ext. intros x Hx. rewrite sumn_swap. fold (X x q). 
      transitivity (sumn m (fun c => rmul (rmul (rconj (F x q)) (X x c)) (delta c q))).
      { apply sumn_ext. intros c Hc. rewrite sumn_scal_l. rewrite VN by auto. reflexivity. }
      rewrite (sumn_single _ m q); auto; [unfold delta; rewrite Nat.eqb_refl; ring|]. intros c Hc Nc. unfold delta. apply Nat.eqb_neq in Nc. rewrite Nc. ring.
  - cbn [map sp_op]. exists (zeros (K := C_star) (shape (nth i Cs noarr))). split; [reflexivity|]. rewrite SC. split; [split; [apply wf_build|reflexivity]|].
    assert (Z : forall x q, x < nth i ns 0 -> q < nth i ms 0 -> entries (zeros (K := C_star) [nth i ns 0; nth i ms 0]) x q = r0).
    { intros x q Hx Hq. unfold entries, zeros. rewrite get_build by (apply in_range2; auto). reflexivity. }
    split.
    + intros p q Hp Hq. apply sumn_zero. intros x Hx. rewrite Z by auto. ring.
    + intros F OF. rewrite ham_no_axis by auto. rewrite braket_varied by auto.
      rewrite (sumn_zero _ (nth i ms 0)).
      2:{ intros q Hq. apply sumn_zero. intros p Hp. rewrite sumn_zero; [ring|]. intros x Hx. rewrite Z by auto. ring. }
      unfold frobenius. rewrite (sumn_zero _ (nth i ns 0)); [ring|]. intros x Hx. apply sumn_zero. intros q Hq. rewrite Z by auto. ring.
Qed.

(** ** All parts of one term *)
Lemma mapM_app {X Y} (f : X -> res Y) : forall l1 l2, mapM f (l1 ++ l2) = bind (mapM f l1) (fun a => bind (mapM f l2) (fun b => Ok (a ++ b))).
Proof.
  induction l1 as [|x l1 IH]; intros l2; cbn [app mapM bind]; [destruct (mapM f l2); reflexivity|]. destruct (f x) as [y|e]; cbn [bind]; [|reflexivity]. rewrite IH.
  destruct (mapM f l1) as [a|e]; cbn [bind]; [|reflexivity]. destruct (mapM f l2); reflexivity.
Qed.
Lemma mapM_seq (f : nat -> res (list C_star)) (P : nat -> carr -> Prop) : forall k, (forall i, i < k -> exists D, f i = Ok (data D) /\ P i D) ->
  exists Ds, mapM f (seq 0 k) = Ok (map (@data C_star) Ds) /\ length Ds = k /\ forall i, i < k -> P i (nth i Ds noarr).
Proof.
  induction k as [|k IH]; intros H; [exists []; cbn; repeat split; auto; lia|]. destruct IH as (Ds & E & L & V); [intros; apply H; lia|]. destruct (H k ltac:(lia)) as (D & ED & PD).
  exists (Ds ++ [D]). rewrite seq_S, mapM_app, E. cbn [Nat.add mapM bind]. rewrite ED. cbn [bind]. rewrite map_app. split; [reflexivity|]. split; [rewrite app_length; cbn; lia|].
  intros i Hi. destruct (Nat.eq_dec i k) as [->|N]; [rewrite app_nth2 by lia; rewrite L, Nat.sub_diag; exact PD|]. rewrite app_nth1 by lia. apply V. lia.
Qed.
Lemma parts_of Ds B : length Ds = length ns -> (forall i, i < length ns -> part_ok [nth i ns 0; nth i ms 0] (nth i Ds noarr)) -> part_ok ms B -> Forall2 part_ok shapes (Ds ++ [B]).
Proof.
  intros L H HB. unfold shapes, all_shapes. apply Forall2_app; [|constructor; auto]. clear HB B. unfold ns, ms in *. clear - L H. rewrite map_length in *. revert Ds L H.
  induction sl as [|[n m] l IH]; intros [|D Ds] L H; cbn in L; try lia; cbn [map]; constructor; [apply (H 0); cbn; lia|]. apply IH; [lia|]. intros i Hi. apply (H (S i)). cbn. lia.
Qed.
Lemma entries_at (Ds : list carr) i : i < length Ds -> nth i (map entries Ds) nomat = entries (nth i Ds noarr).
Proof. intros Hi. rewrite (nth_indep _ nomat (entries noarr)) by (rewrite map_length; auto). apply map_nth. Qed.

Hypothesis Hinv : forall i, i < length ns -> finds_inverse i.
Lemma term_ok term mods : well_formed ns term -> readable ns ms term -> Forall2 mean_of term mods ->
  exists Ds B, term_hamiltonian inv err shapes vec vec term mods = Ok (flat (Ds ++ [B])) /\ length Ds = length ns /\ Forall2 part_ok shapes (Ds ++ [B]) /\
  solves ns ms cs (get A) err [term] (map entries Ds) (get B).
Proof.
  intros WT RT FM. destruct (coeff_part term mods WT RT FM) as (B & EB & PB & VB).
  destruct (mapM_seq (term_part inv err shapes vec vec term mods) (fun i D => part_ok [nth i ns 0; nth i ms 0] D /\
     orthogonal (nth i ns 0) (nth i ms 0) (nth i cs nomat) (entries D) /\
     forall F, orthogonal (nth i ns 0) (nth i ms 0) (nth i cs nomat) F ->
       radd (braket ns (varied ms cs (get A) i F) (varied ms cs (get A) i (entries D))) (rmul err (frobenius (nth i ns 0) (nth i ms 0) F (entries D)))
       = braket ns (varied ms cs (get A) i F) (apply_term ns term (psi cs ms (get A)))) (length ns)) as (Ds & ED & LD & VD).
  { intros i Hi. destruct (sp_part term mods i WT RT FM Hi (Hinv i Hi)) as (D & ED & PD & OD & GD). exists D. split; auto.
    unfold term_part. rewrite sub_C by auto. cbn [bind]. rewrite L_shapes. replace (i <? S (length ns) - 1) with true by (symmetry; apply Nat.ltb_lt; lia).
    exact (f_equal (fun r : res carr => bind r (fun v => Ok (data v))) ED). }
  assert (PP : Forall2 part_ok shapes (Ds ++ [B])) by (apply parts_of; auto; intros i Hi; apply VD; auto).
  exists Ds, B. split; [|split; [exact LD|split; [exact PP|]]].
  - unfold term_hamiltonian. rewrite L_shapes, seq_S, mapM_app. rewrite ED. cbn [Nat.add mapM bind]. unfold term_part at 1. rewrite sub_A'. cbn [bind]. rewrite L_shapes.
    replace (length ns <? S (length ns) - 1) with false by (symmetry; apply Nat.ltb_ge; lia). rewrite EB. cbn [bind]. unfold flat. now rewrite map_app.
  - assert (H1 : forall n, apply_ham ns [term] (psi cs ms (get A)) n = apply_term ns term (psi cs ms (get A)) n) by (intros n; unfold apply_ham; rewrite sumL_cons, sumL_nil; ring).
    split; [|split].
    + intros m Rm. rewrite VB by auto. apply sumL_ext. intros n. unfold state_of. now rewrite H1.
    + intros i Hi. rewrite (entries_at Ds) by exact (eq_ind_r (fun k => i < k) Hi LD). apply VD. auto.
    + intros i F Hi OF. rewrite (entries_at Ds) by exact (eq_ind_r (fun k => i < k) Hi LD). destruct (VD i Hi) as (_ & _ & V). rewrite (V F OF). apply braket_ext_r. intros x _. unfold state_of. now rewrite H1.
Qed.

(** ** Adding up *)
Lemma solves_nil Ds B : (forall m, in_range m ms -> B m = r0) -> (forall i x q, i < length ns -> x < nth i ns 0 -> q < nth i ms 0 -> nth i Ds nomat x q = r0) ->
  solves ns ms cs (get A) err [] Ds B.
Proof.
  intros ZB ZD. split; [|split].
  - intros m Rm. rewrite ZB by auto. symmetry. apply sumL_zero_in. intros n _. unfold apply_ham. rewrite sumL_nil. ring.
  - intros i Hi p q Hp Hq. apply sumn_zero. intros x Hx. rewrite ZD by auto. ring.
  - intros i F Hi OF. rewrite braket_varied by auto. rewrite (sumn_zero _ (nth i ms 0)).
    2:{ intros q Hq. apply sumn_zero. intros p Hp. rewrite sumn_zero; [ring|]. intros x Hx. rewrite ZD by auto. ring. }
    unfold frobenius. rewrite (sumn_zero _ (nth i ns 0)) by (intros x Hx; apply sumn_zero; intros q Hq; rewrite ZD by auto; ring).
    unfold braket, apply_ham. rewrite sumL_zero_in; [ring|]. intros x _. rewrite sumL_nil. ring.
Qed.
Lemma solves_add t1 t2 D1 D2 D3 B1 B2 B3 : solves ns ms cs (get A) err t1 D1 B1 -> solves ns ms cs (get A) err t2 D2 B2 ->
  (forall m, in_range m ms -> B3 m = radd (B1 m) (B2 m)) -> (forall i x q, i < length ns -> x < nth i ns 0 -> q < nth i ms 0 -> nth i D3 nomat x q = radd (nth i D1 nomat x q) (nth i D2 nomat x q)) ->
  solves ns ms cs (get A) err (t1 ++ t2) D3 B3.
Proof.
  intros (P1 & O1 & G1) (P2 & O2 & G2) HB HD.
  assert (AH : forall n, apply_ham ns (t1 ++ t2) (psi cs ms (get A)) n = radd (apply_ham ns t1 (psi cs ms (get A)) n) (apply_ham ns t2 (psi cs ms (get A)) n)) by (intros n; apply sumL_app).
  split; [|split].
  - intros m Rm. rewrite HB, P1, P2 by auto. rewrite <- sumL_add. apply sumL_ext. intros n. unfold state_of. rewrite AH. ring.
  - intros i Hi p q Hp Hq. transitivity (radd (r0 : C_star) r0); [|ring]. rewrite <- (O1 i Hi p q Hp Hq) at 1. rewrite <- (O2 i Hi p q Hp Hq). rewrite <- sumn_add. apply sumn_ext. intros x Hx. rewrite HD by auto. ring.
  - intros i F Hi OF. specialize (G1 i F Hi OF). specialize (G2 i F Hi OF).
    transitivity (radd (braket ns (varied ms cs (get A) i F) (apply_ham ns t1 (psi cs ms (get A)))) (braket ns (varied ms cs (get A) i F) (apply_ham ns t2 (psi cs ms (get A))))).
    2:{ unfold braket. rewrite <- sumL_add. apply sumL_ext. intros n. unfold state_of. rewrite AH. ring. }
    unfold state_of in *. rewrite <- G1, <- G2. rewrite !braket_varied by auto.
    assert (X1 : frobenius (nth i ns 0) (nth i ms 0) F (nth i D3 nomat) = radd (frobenius (nth i ns 0) (nth i ms 0) F (nth i D1 nomat)) (frobenius (nth i ns 0) (nth i ms 0) F (nth i D2 nomat))).
    { unfold frobenius. rewrite <- sumn_add. apply sumn_ext. intros x Hx. rewrite <- sumn_add. apply sumn_ext. intros q Hq. rewrite HD by auto. ring. }
    rewrite X1. set (m := nth i ms 0) in *. set (n := nth i ns 0) in *.
    assert (X2 : sumn m (fun q => sumn m (fun p => rmul (sumn n (fun x => rmul (rconj (F x q)) (nth i D3 nomat x p))) (density ms (get A) i p q)))
      = radd (sumn m (fun q => sumn m (fun p => rmul (sumn n (fun x => rmul (rconj (F x q)) (nth i D1 nomat x p))) (density ms (get A) i p q))))
             (sumn m (fun q => sumn m (fun p => rmul (sumn n (fun x => rmul (rconj (F x q)) (nth i D2 nomat x p))) (density ms (get A) i p q))))).
    { rewrite <- sumn_add. apply sumn_ext. intros q Hq. rewrite <- sumn_add. apply sumn_ext. intros p Hp.
      replace (sumn n (fun x => rmul (rconj (F x q)) (nth i D3 nomat x p))) with (radd (sumn n (fun x => rmul (rconj (F x q)) (nth i D1 nomat x p))) (sumn n (fun x => rmul (rconj (F x q)) (nth i D2 nomat x p)))); [ring|].
      rewrite <- sumn_add. apply sumn_ext. intros x Hx. rewrite HD by auto. ring. }
    rewrite X2. ring.
Qed.

Lemma combine_app {X Y} : forall (l1 : list X) (m1 : list Y) l2 m2, length l1 = length m1 -> combine (l1 ++ l2) (m1 ++ m2) = combine l1 m1 ++ combine l2 m2.
Proof. induction l1 as [|x l1 IH]; intros [|y m1] l2 m2 L; cbn in *; try lia; auto. rewrite IH by lia. reflexivity. Qed.
Definition add_lists (u v : list C_star) : list C_star := map (fun p : C_star * C_star => radd (fst p) (snd p)) (combine u v).
Lemma flat_len shs Ps : Forall2 part_ok shs Ps -> length (flat Ps) = list_sum (map prod shs).
Proof. intros F. induction F as [|sh P shs Ps (W & E) F IH]; [reflexivity|]. unfold flat in *. cbn [map concat]. rewrite app_length, IH. unfold wf in W. rewrite W, E. reflexivity. Qed.
Lemma flat_add shs Ps Qs : Forall2 part_ok shs Ps -> Forall2 part_ok shs Qs -> exists Rs, Forall2 part_ok shs Rs /\ add_lists (flat Ps) (flat Qs) = flat Rs /\
  forall i idx, i < length shs -> in_range idx (nth i shs []) -> get (nth i Rs noarr) idx = radd (get (nth i Ps noarr) idx) (get (nth i Qs noarr) idx).
Proof.
  intros F. revert Qs. induction F as [|sh P shs Ps (W & E) F IH]; intros Qs G; inversion G as [|? Q ? Qs' (W' & E') G']; subst.
  - exists []. split; auto. split; [reflexivity|]. cbn. intros; lia.
  - destruct (IH Qs' G') as (Rs & PR & ER & VR). pose proof (arr_add_ok _ P Q W W' (eq_sym E')) as AD.
    exists (build (shape P) (fun idx => radd (get P idx) (get Q idx)) :: Rs). split; [constructor; auto; split; [apply wf_build|reflexivity]|]. split.
    + unfold flat in *. cbn [map concat]. unfold add_lists in *. rewrite combine_app by (unfold wf in *; congruence). rewrite map_app, ER. f_equal.
      unfold arr_add in AD. destruct (list_eq_dec Nat.eq_dec (shape P) (shape Q)); [|discriminate]. exact (f_equal (fun r : res carr => match r with Ok a => data a | Raise _ => [] end) AD).
    + intros [|i] idx Hi R; cbn [nth] in *; [rewrite get_build; auto|]. apply VR; auto. cbn in Hi. lia.
Qed.

Definition total := list_sum (map prod shapes).
Lemma split_parts Ps : Forall2 part_ok shapes Ps -> exists Ds B, Ps = Ds ++ [B] /\ length Ds = length ns.
Proof.
  intros F. pose proof (Forall2_len _ _ _ F) as L. rewrite L_shapes in L. destruct (exists_last (l := Ps)) as (Ds & B & ->); [destruct Ps; [discriminate L|discriminate]|]. exists Ds, B. split; auto. rewrite app_length in L. cbn in L. lia.
Qed.
Lemma shape_part i : i < length ns -> nth i shapes [] = [nth i ns 0; nth i ms 0].
Proof.
  intros Hi. unfold shapes, all_shapes, ns, ms in *. rewrite map_length in Hi. rewrite app_nth1 by (rewrite map_length; auto).
  rewrite (nth_indep _ [] ((fun s : nat * nat => [fst s; snd s]) (0, 0))) by (rewrite map_length; auto). rewrite (map_nth (fun s : nat * nat => [fst s; snd s])).
  rewrite <- (map_nth fst sl (0, 0) i), <- (map_nth snd sl (0, 0) i). reflexivity.
Qed.
Lemma shape_tensor : nth (length ns) shapes [] = ms.
Proof. unfold shapes, all_shapes, ns, ms. rewrite map_length. rewrite app_nth2; rewrite map_length; [|lia]. rewrite Nat.sub_diag. reflexivity. Qed.

Lemma add_terms_ok : forall (l : list (cterm * cterm)) done Ds B,
  Forall (fun p => well_formed ns (fst p) /\ readable ns ms (fst p) /\ Forall2 mean_of (fst p) (snd p)) l ->
  length Ds = length ns -> Forall2 part_ok shapes (Ds ++ [B]) -> solves ns ms cs (get A) err done (map entries Ds) (get B) ->
  exists Ds' B', add_terms inv err shapes vec vec l (mkArr [total] (flat (Ds ++ [B]))) = Ok (mkArr [total] (flat (Ds' ++ [B']))) /\
    length Ds' = length ns /\ Forall2 part_ok shapes (Ds' ++ [B']) /\ solves ns ms cs (get A) err (done ++ map fst l) (map entries Ds') (get B').
Proof.
  induction l as [|[term mods] l IH]; intros done Ds B F LD PD SD; cbn [add_terms].
  - exists Ds, B. cbn [map]. rewrite app_nil_r. auto.
  - inversion F as [|? ? (WT & RT & MT) F']; subst. cbn [fst snd] in *. destruct (term_ok term mods WT RT MT) as (D1 & B1 & E1 & L1 & P1 & S1). rewrite E1. cbn [bind].
    destruct (flat_add shapes _ _ PD P1) as (Rs & PR & ER & VR). destruct (split_parts Rs PR) as (D2 & B2 & -> & L2).
    assert (EA : arr_add (mkArr [total] (flat (Ds ++ [B]))) (mkArr [length (flat (D1 ++ [B1]))] (flat (D1 ++ [B1]))) = Ok (mkArr [total] (flat (D2 ++ [B2])))).
    { unfold arr_add. cbn [shape data]. rewrite (flat_len _ _ P1). fold total. destruct (list_eq_dec Nat.eq_dec [total] [total]); [|congruence]. f_equal. f_equal. exact ER. }
    rewrite EA. cbn [bind]. destruct (IH (done ++ [term]) D2 B2 F' L2 PR) as (D3 & B3 & E3 & L3 & P3 & S3).
    + apply (solves_add done [term] (map entries Ds) (map entries D1) (map entries D2) (get B) (get B1) (get B2) SD S1).
      * intros m Rm. specialize (VR (length ns) m ltac:(rewrite L_shapes; lia)). rewrite shape_tensor in VR. specialize (VR Rm). rewrite !app_nth2 in VR by lia. rewrite LD, L1, L2, Nat.sub_diag in VR. exact VR.
      * intros i x q Hi Hx Hq. rewrite !entries_at by lia. specialize (VR i [x; q] ltac:(rewrite L_shapes; lia)). rewrite shape_part in VR by auto. specialize (VR (in_range2 _ _ _ _ Hx Hq)).
        rewrite !app_nth1 in VR by lia. exact VR.
    + exists D3, B3. split; [exact E3|]. split; [exact L3|]. split; [exact P3|]. cbn [map fst]. rewrite <- app_assoc in S3. exact S3.
Qed.

Lemma update_ok h_terms : Forall (well_formed ns) h_terms -> exists mods, update_mod_terms shapes h_terms vec = Ok mods /\ Forall2 (Forall2 mean_of) h_terms mods.
Proof.
  unfold update_mod_terms. induction h_terms as [|term l IH]; intros F; [exists []; cbn; auto|]. inversion F as [|? ? WT F']; subst. destruct (IH F') as (mods & E & R). destruct (mods_ok term) as (m & Em & Rm); [apply WT|].
  exists (m :: mods). cbn [mapM]. rewrite Em. cbn [bind]. rewrite E. cbn [bind]. auto.
Qed.
Lemma vec_len : length vec = total.
Proof. unfold vec. apply flat_len. apply parts_ok. Qed.
Lemma zeros_flat : forall shs, exists Ps, Forall2 part_ok shs Ps /\ repeat (r0 : C_star) (list_sum (map prod shs)) = flat Ps /\ forall i idx, i < length shs -> in_range idx (nth i shs []) -> get (nth i Ps noarr) idx = r0.
Proof.
  induction shs as [|sh shs (Ps & F & E & V)]; [exists []; repeat split; auto; cbn; intros; lia|]. exists (mkArr sh (repeat r0 (prod sh)) :: Ps). split; [constructor; auto; split; [unfold wf; cbn; apply repeat_length|reflexivity]|]. split.
  - unfold flat in *. cbn [map concat data]. rewrite <- E. change (list_sum (prod sh :: map prod shs)) with (prod sh + list_sum (map prod shs)). apply repeat_app.
  - intros [|i] idx Hi R; cbn [nth] in *; [unfold get; cbn [shape data]; apply nth_repeat|]. apply V; auto. cbn in Hi. lia.
Qed.
Lemma matvec_ok h_terms : Forall (well_formed ns) h_terms -> Forall (readable ns ms) h_terms ->
  exists Ds B, h_matvec inv err shapes vec vec h_terms = Ok (mkArr [length vec] (flat (Ds ++ [B]))) /\ length Ds = length ns /\ Forall2 part_ok shapes (Ds ++ [B]) /\
    solves ns ms cs (get A) err h_terms (map entries Ds) (get B).
Proof.
  intros W R. destruct (update_ok h_terms W) as (mods & E & M). unfold h_matvec. rewrite E. cbn [bind].
  destruct (zeros_flat shapes) as (Ps & P0 & E0 & V0). destruct (split_parts Ps P0) as (D0 & B0 & -> & L0).
  assert (EZ : zeros (K := C_star) [length vec] = mkArr [total] (flat (D0 ++ [B0]))).
  { rewrite <- E0, vec_len. symmetry. unfold zeros. apply eq_build; [unfold wf; cbn [data shape prod fold_right]; rewrite repeat_length; unfold total; cbn; lia|reflexivity|].
    intros idx _. unfold get. cbn [data shape]. apply nth_repeat. }
  rewrite EZ. destruct (add_terms_ok (combine h_terms mods) [] D0 B0) as (Ds & B & EB & LB & PB & SB); auto.
  - clear - W R M. revert W R. induction M as [|t m ts ms' H M IH]; intros W R; cbn [combine]; constructor; inversion W; inversion R; subst; auto.
  - apply solves_nil.
    + intros m Rm. specialize (V0 (length ns) m ltac:(rewrite L_shapes; lia)). rewrite shape_tensor, app_nth2 in V0 by lia. rewrite L0, Nat.sub_diag in V0. auto.
    + intros i x q Hi Hx Hq. rewrite (entries_at D0) by lia. specialize (V0 i [x; q] ltac:(rewrite L_shapes; lia)). rewrite shape_part, app_nth1 in V0 by lia. apply V0. apply in_range2; auto.
  - exists Ds, B. rewrite vec_len. split; [exact EB|]. split; [exact LB|]. split; [exact PB|]. cbn [app] in SB.
    replace (map fst (combine h_terms mods)) with h_terms in SB; auto. clear - M. induction M; cbn; congruence.
Qed.

(** ** Energy *)
Lemma dot_data (a b : carr) : wf a -> wf b -> shape a = shape b -> 
  sum_list (map (fun p : C_star * C_star => rmul (fst p) (snd p)) (combine (map rconj (data a)) (data b))) = braket (shape a) (get a) (get b).
Proof.
  intros Wa Wb E. unfold braket. assert (Da : data a = map (get a) (indices (shape a))). { exact (f_equal (@data C_star) (eq_sym (build_get _ a Wa))). } assert (Db : data b = map (get b) (indices (shape a))). { rewrite E. exact (f_equal (@data C_star) (eq_sym (build_get _ b Wb))). }
  rewrite Da, Db. clear. unfold sumL. f_equal. induction (indices (shape a)) as [|x l IH]; [reflexivity|]. cbn [map combine fst snd]. now rewrite IH.
Qed.
Lemma energy_loop_ok : forall h_terms mods ans, Forall2 (Forall2 mean_of) h_terms mods -> Forall (well_formed ns) h_terms -> Forall (readable ns ms) h_terms ->
  energy_loop A mods ans = Ok (radd ans (braket ns (psi cs ms (get A)) (apply_ham ns h_terms (psi cs ms (get A))))).
Proof.
  intros h_terms mods ans F. revert ans. induction F as [|t m ts ms' H M IH]; intros ans W R; cbn [energy_loop].
  - unfold braket, apply_ham. rewrite sumL_zero_in; [f_equal; ring|]. intros x _. rewrite sumL_nil. ring.
  - inversion W as [|? ? W1 W2]; inversion R as [|? ? R1 R2]; subst. destruct (coeff_part t m W1 R1 H) as (B & EB & (WB & SB) & VB). rewrite EB. cbn [bind]. destruct HA as (WA & SA).
    replace (length (map rconj (data A)) =? length (data B)) with true by (symmetry; apply Nat.eqb_eq; rewrite map_length; unfold wf in *; congruence). cbn [bind].
    rewrite dot_data by (auto; congruence). rewrite (IH _ W2 R2). f_equal. rewrite SA.
    assert (E1 : braket ms (get A) (get B) = braket ns (psi cs ms (get A)) (apply_term ns t (psi cs ms (get A)))).
    { rewrite braket_psi by (auto using L_cs, L_ms). apply sumL_ext_in. intros x Hx. apply in_indices in Hx. rewrite VB by auto. f_equal. apply sumL_ext. intros n. now rewrite kron_conj. }
    rewrite E1. assert (E2 : braket ns (psi cs ms (get A)) (apply_ham ns (t :: ts) (psi cs ms (get A))) = radd (braket ns (psi cs ms (get A)) (apply_term ns t (psi cs ms (get A)))) (braket ns (psi cs ms (get A)) (apply_ham ns ts (psi cs ms (get A))))).
    { unfold braket. rewrite <- sumL_add. apply sumL_ext. intros n. unfold apply_ham. rewrite sumL_cons. ring. }
    rewrite E2. ring.
Qed.
Lemma energy_ok h_terms : Forall (well_formed ns) h_terms -> Forall (readable ns ms) h_terms ->
  energy_expection shapes h_terms vec = Ok (braket ns (psi cs ms (get A)) (apply_ham ns h_terms (psi cs ms (get A)))).
Proof.
  intros W R. destruct (update_ok h_terms W) as (mods & E & M). unfold energy_expection. rewrite sub_A. cbn [bind]. rewrite E. cbn [bind]. rewrite (energy_loop_ok h_terms mods _ M W R). f_equal. ring.
Qed.

(** ** Tangent vectors *)
Lemma zero_axis i (Fs Gs : list cmat) (f g : list nat -> C_star) : i < length ns -> length Fs = length ns -> length Gs = length ns ->
  (forall p q, p < nth i ms 0 -> q < nth i ms 0 -> sumn (nth i ns 0) (fun x => rmul (rconj (nth i Fs nomat x p)) (nth i Gs nomat x q)) = r0) ->
  braket ns (psi Fs ms f) (psi Gs ms g) = r0.
Proof.
  intros Hi LF LG Z. assert (L3 := L_ms). rewrite braket_psi_psi by auto. set (Ms := comps ns _ _). assert (LM : length Ms = length ns) by (unfold Ms; rewrite length_comps; rewrite ?map_length; auto).
  rewrite (braket_ext_r _ _ (fun _ => r0)).
  - unfold braket. apply sumL_zero_in. intros. ring.
  - intros x Rx. pose proof (in_range_len _ _ Rx) as Lx. transitivity (on_axis i 0 nomat (psi Ms ms g) x); [|reflexivity].
    rewrite axis_psi by lia. apply (psi_ext ms ms); auto; [lia|rewrite length_upd; lia|]. intros j a b Hj Ha Hb. destruct (Nat.eq_dec j i) as [->|N].
    + rewrite nth_upd_eq by lia. unfold Ms. rewrite (nth_comps _ _ _ _ _ nomat nomat) by (rewrite ?map_length; auto). rewrite (nth_indep _ nomat (adj nomat)) by (rewrite map_length; lia). rewrite map_nth.
      unfold comp at 2. rewrite sumn_0. apply Z; auto.
    + rewrite nth_upd_neq by auto. reflexivity.
Qed.
Lemma braket_same (f g : list nat -> C_star) : braket ns (psi cs ms f) (psi cs ms g) = braket ms f g.
Proof.
  assert (L2 := L_cs). assert (L3 := L_ms). rewrite braket_psi_psi by auto. apply braket_ext_r. intros x Rx. rewrite <- (kron_delta ms x g Rx). apply (psi_ext ms ms); auto.
  - rewrite length_comps; rewrite ?map_length; auto.
  - apply map_length.
  - intros j a b Hj Ha Hb. rewrite L3 in Hj. rewrite (nth_comps _ _ _ _ _ nomat nomat) by (rewrite ?map_length; auto). rewrite (nth_indep (map adj cs) nomat (adj nomat)) by (rewrite map_length; lia). rewrite map_nth.
    fold ident. rewrite nth_ident by auto. apply (Horth j Hj a b Ha Hb).
Qed.
Lemma braket_add_l (f g h : list nat -> C_star) : braket ns (fun n => radd (f n) (g n)) h = radd (braket ns f h) (braket ns g h).
Proof. unfold braket. rewrite <- sumL_add. apply sumL_ext. intros n. rewrite rconj_add. ring. Qed.
Lemma braket_add_r (f g h : list nat -> C_star) : braket ns h (fun n => radd (f n) (g n)) = radd (braket ns h f) (braket ns h g).
Proof. unfold braket. rewrite <- sumL_add. apply sumL_ext. intros n. ring. Qed.
Lemma braket_sum_l {X} (l : list X) (f : X -> list nat -> C_star) (h : list nat -> C_star) : braket ns (fun n => sumL l (fun i => f i n)) h = sumL l (fun i => braket ns (f i) h).
Proof. unfold braket. rewrite sumL_swap. apply sumL_ext. intros n. rewrite rconj_sumL, <- sumL_scal_r. reflexivity. Qed.
Lemma braket_sum_r {X} (l : list X) (f : X -> list nat -> C_star) (h : list nat -> C_star) : braket ns h (fun n => sumL l (fun i => f i n)) = sumL l (fun i => braket ns h (f i)).
Proof. unfold braket. rewrite sumL_swap. apply sumL_ext. intros n. rewrite <- sumL_scal_l. reflexivity. Qed.

Lemma kron_upd_add : forall i (F F1 F2 : cmat) Ms x y, i < length Ms -> length x = length Ms -> length y = length Ms -> F (nth i x 0) (nth i y 0) = radd (F1 (nth i x 0) (nth i y 0)) (F2 (nth i x 0) (nth i y 0)) ->
  kron (upd i F Ms) x y = radd (kron (upd i F1 Ms) x y) (kron (upd i F2 Ms) x y).
Proof.
  induction i as [|i IH]; intros F F1 F2 [|M Ms] [|a x] [|b y] Hi Lx Ly E; cbn [length] in *; try lia.
  - unfold upd. cbn [length Nat.ltb Nat.leb firstn skipn app kron nth] in *. rewrite E. ring.
  - assert (U : forall (z : cmat) w l, i < length l -> upd (S i) z (w :: l) = w :: upd i z l).
    { intros z w l Hl. unfold upd. cbn [length]. replace (S i <? S (length l)) with true by (symmetry; apply Nat.ltb_lt; lia). replace (i <? length l) with true by (symmetry; apply Nat.ltb_lt; lia). reflexivity. }
    rewrite !U by lia. cbn [kron nth] in *. rewrite (IH F F1 F2 Ms x y) by (auto; lia). ring.
Qed.
Section Tangent.
Variables (terms : list cterm) (Ds : list cmat) (B : list nat -> C_star).
Hypothesis HS : solves ns ms cs (get A) r0 terms Ds B.
Let H := apply_ham ns terms (psi cs ms (get A)).
Let P' := tangent ms cs (get A) Ds B.

Lemma var_tensor G : braket ns (psi cs ms G) P' = braket ns (psi cs ms G) H.
Proof.
  assert (L2 := L_cs). assert (L3 := L_ms). destruct HS as (H1 & H2 & _). unfold P', tangent. rewrite braket_add_r, braket_sum_r. rewrite sumL_zero_in.
  - rewrite braket_same. rewrite braket_psi by auto. transitivity (braket ms G B); [ring|]. apply braket_ext_r. intros m Rm. rewrite H1 by auto. apply sumL_ext. intros n. rewrite kron_conj. reflexivity.
  - intros i Hi. apply in_seq in Hi. unfold varied. apply (zero_axis i); auto; [lia|now rewrite length_upd|]. intros p q Hp Hq. rewrite nth_upd_eq by lia. apply H2; auto. lia.
Qed.
Lemma var_gauge i F : i < length ns -> orthogonal (nth i ns 0) (nth i ms 0) (nth i cs nomat) F -> braket ns (varied ms cs (get A) i F) P' = braket ns (varied ms cs (get A) i F) H.
Proof.
  intros Hi OF. assert (L2 := L_cs). assert (L3 := L_ms). destruct HS as (_ & _ & H3). specialize (H3 i F Hi OF). unfold state_of in H3. fold H in H3. unfold P', tangent. rewrite braket_add_r, braket_sum_r.
  assert (OF' : forall p q, p < nth i ms 0 -> q < nth i ms 0 -> sumn (nth i ns 0) (fun x => rmul (rconj (F x p)) (nth i cs nomat x q)) = r0).
  { intros p q Hp Hq. rewrite <- (rconj_0 C_star), <- (OF q p Hq Hp), rconj_sumn. apply sumn_ext. intros x Hx. rewrite rconj_mul, rconj_invol. ring. }
  replace (braket ns (varied ms cs (get A) i F) (psi cs ms B)) with (r0 : C_star).
  2:{ symmetry. unfold varied. apply (zero_axis i); auto; [now rewrite length_upd|]. intros p q Hp Hq. rewrite nth_upd_eq by lia. auto. }
  rewrite (sumL_single _ (seq 0 (length cs)) i).
  - rewrite <- H3. change (fun n => varied ms cs (get A) i (nth i Ds nomat) n) with (varied ms cs (get A) i (nth i Ds nomat)). ring.
  - apply seq_NoDup.
  - apply in_seq. lia.
  - intros j Hj N. unfold varied. apply (zero_axis i); auto; try now rewrite length_upd. intros p q Hp Hq. rewrite nth_upd_eq by lia. rewrite nth_upd_neq by auto. auto.
Qed.
(** a change of one matrix within its span is a change of the tensor *)
Lemma var_inner i (L : cmat) n : i < length ns -> in_range n ns ->
  varied ms cs (get A) i (comp (nth i ms 0) (nth i cs nomat) L) n = psi cs ms (on_axis i (nth i ms 0) L (get A)) n.
Proof.
  intros Hi Rn. pose proof (in_range_len _ _ Rn) as Ln. assert (L2 := L_cs). assert (L3 := L_ms). assert (LI := L_ident). unfold varied. symmetry.
  transitivity (psi (comps ms cs (upd i (comp (nth i ms 0) L (nth i ident nomat)) ident)) ms (get A) n).
  - rewrite <- psi_comp by (rewrite ?length_upd; lia). unfold psi at 1. apply sumL_ext_in. intros m Hm. apply in_indices in Hm. f_equal. pose proof (in_range_len _ _ Hm) as Lm.
    rewrite <- axis_psi by lia. unfold on_axis. apply sumn_ext. intros k Hk. f_equal. apply A_psi. apply in_range_upd_same; auto.
  - apply (psi_ext ns ms); auto.
    + rewrite length_comps; rewrite ?length_upd; lia.
    + rewrite length_upd; lia.
    + intros j a b Hj Ha Hb. rewrite (nth_comps _ _ _ _ _ nomat nomat) by (rewrite ?length_upd; lia). destruct (Nat.eq_dec j i) as [->|N].
      * rewrite !nth_upd_eq by lia. apply comp_ext; [reflexivity|]. intros k Hk. rewrite nth_ident by auto. apply comp_delta. auto.
      * rewrite !nth_upd_neq by auto. rewrite nth_ident by auto. apply comp_delta. auto.
Qed.
Lemma var_any i F : i < length ns -> braket ns (varied ms cs (get A) i F) P' = braket ns (varied ms cs (get A) i F) H.
Proof.
  intros Hi. set (n := nth i ns 0). set (m := nth i ms 0). set (C := nth i cs nomat). assert (OC := Horth i Hi). fold n m C in OC.
  set (L := comp n (adj C) F). set (F2 := fun x q => rsub (F x q) (comp m C L x q)).
  assert (E : forall x, in_range x ns -> varied ms cs (get A) i F x = radd (psi cs ms (on_axis i m L (get A)) x) (varied ms cs (get A) i F2 x)).
  { intros x Rx. unfold m. rewrite <- var_inner by auto. fold m C. unfold varied, psi. rewrite <- sumL_add. apply sumL_ext_in. intros y Hy. apply in_indices, in_range_len in Hy. assert (L2 := L_cs). assert (L3 := L_ms).
    rewrite (kron_upd_add i F (comp m C L) F2); [ring|lia|rewrite (in_range_len _ _ Rx); lia|lia|]. unfold F2. ring. }
  assert (E' : forall g, braket ns (varied ms cs (get A) i F) g = radd (braket ns (psi cs ms (on_axis i m L (get A))) g) (braket ns (varied ms cs (get A) i F2) g)).
  { intros g. rewrite <- braket_add_l. apply sumL_ext_in. intros x Hx. apply in_indices in Hx. now rewrite E. }
  rewrite !E'. rewrite var_tensor, var_gauge; auto. fold n m C. intros p q Hp Hq. unfold F2.
  transitivity (rsub (L p q) (sumn n (fun x => rmul (rconj (C x p)) (comp m C L x q)))).
  { transitivity (rsub (sumn n (fun x => rmul (rconj (C x p)) (F x q))) (sumn n (fun x => rmul (rconj (C x p)) (comp m C L x q)))); [|reflexivity].
    rewrite <- sumn_sub. apply sumn_ext. intros x Hx. ring. }
  replace (sumn n (fun x => rmul (rconj (C x p)) (comp m C L x q))) with (L p q); [ring|].
  unfold comp. transitivity (sumn n (fun x => sumn m (fun b => rmul (rmul (rconj (C x p)) (C x b)) (L b q)))).
  2:{ apply sumn_ext. intros x Hx. rewrite <- sumn_scal_l. apply sumn_ext. intros. ring. }
  rewrite sumn_swap. rewrite (sumn_single _ m p); auto.
  - rewrite sumn_scal_r, (OC p p Hp Hp). unfold delta. rewrite Nat.eqb_refl. ring.
  - intros b Hb N. rewrite sumn_scal_r, (OC p b Hp Hb). unfold delta. replace (p =? b) with false by (symmetry; apply Nat.eqb_neq; auto). ring.
Qed.
Lemma var_all Fs G : braket ns (tangent ms cs (get A) Fs G) P' = braket ns (tangent ms cs (get A) Fs G) H.
Proof.
  unfold tangent. rewrite !braket_add_l, !braket_sum_l. rewrite var_tensor. f_equal. apply sumL_ext_in. intros i Hi. apply in_seq in Hi. apply var_any. rewrite <- L_cs. lia.
Qed.
End Tangent.
End Eff.
