(** Property C71: the MCTDH vectors, mean fields, energy and effective Hamiltonian. *)
From Coq Require Import List Arith ZArith Bool Lia Reals Lra.
From Verif Require Import Py Alg ListX NdArray_Model NdArray_Proof Contract_Model PoDvr_Model PoDvr_Spec Cplx
  Mctdh_Model Mctdh_Spec Kron_Proof Mctdh_Proof.
Import ListNotations.
Local Open Scope nat_scope.
Local Open Scope list_scope.

Ltac creal := lazy -[Rplus Rmult Ropp Rminus IZR]; ring.
Definition all_real (Cs : list carr) : Prop := Forall (fun C : carr => forall idx, in_range idx (shape C) -> snd (get C idx) = 0%R) Cs.
Definition positive (sl : list (nat * nat)) : Prop := Forall (fun s => fst s <> 0 /\ snd s <> 0) sl.

Lemma Forall2_shapes (sl : list (nat * nat)) (Cs : list carr) : Forall2 (fun s C => wf C /\ shape C = [fst s; snd s]) sl Cs -> Forall2 part_ok (map (fun s => [fst s; snd s]) sl) Cs.
Proof. intros F. induction F as [|s C sl Cs H F IH]; cbn; constructor; auto. Qed.
Lemma orthonormal_at (sl : list (nat * nat)) (Cs : list carr) : all_orthonormal sl Cs ->
  forall i, i < length (map fst sl) -> orthonormal (nth i (map fst sl) 0) (nth i (map snd sl) 0) (nth i (map entries Cs) no_mat).
Proof.
  intros F. induction F as [|[n m] C sl Cs H F IH]; intros [|i] Hi; cbn in Hi; try lia; cbn [map nth fst snd]; [exact H|]. apply IH. lia.
Qed.

(** The vector is cut into the matrices and the tensor.  The index -1 stands for the tensor. *)
Theorem C71_sub_vectors sl (Cs : list carr) A vec : pieces sl Cs A vec ->
  (forall i, i < length sl -> get_sub_vec (all_shapes sl) (Z.of_nat i) vec = Ok (nth i Cs (mkArr [] []))) /\
  get_sub_vec (all_shapes sl) (Z.of_nat (length sl)) vec = Ok A /\ get_sub_vec (all_shapes sl) (-1) vec = Ok A.
Proof.
  intros (F & W & E & ->). pose proof (Forall2_shapes _ _ F) as F'. split; [|split].
  - intros i Hi. apply (sub_C sl Cs A F' (conj W E)). now rewrite map_length.
  - pose proof (sub_A' sl Cs A F' (conj W E)) as X. rewrite map_length in X. exact X.
  - exact (sub_A sl Cs A F' (conj W E)).
Qed.
Print Assumptions C71_sub_vectors.
(** Every vector of the right length is of this form. *)
Theorem C71_all_vectors sl (vec : list C_star) : length vec = list_sum (map (fun s => fst s * snd s) sl) + prod (map snd sl) -> exists Cs A, pieces sl Cs A vec.
Proof.
  revert vec. enough (G : forall sh vec, length vec = list_sum (map (fun s : nat * nat => fst s * snd s) sl) + prod sh -> exists (Cs : list carr) A,
    Forall2 (fun s C => wf C /\ shape C = [fst s; snd s]) sl Cs /\ wf A /\ shape A = sh /\ vec = concat (map (@data C_star) (Cs ++ [A]))) by (intros vec L; apply G; auto).
  intros sh. induction sl as [|[n m] l IH]; intros vec L; [cbn in L|cbn [map fst snd] in L; change (list_sum (n * m :: map (fun s : nat * nat => fst s * snd s) l)) with (n * m + list_sum (map (fun s : nat * nat => fst s * snd s) l)) in L].
  - exists [], (mkArr sh vec). repeat split; auto. cbn. now rewrite app_nil_r.
  - destruct (IH (skipn (n * m) vec)) as (Cs & A & F & W & E & V); [rewrite skipn_length; lia|].
    exists (mkArr [n; m] (firstn (n * m) vec) :: Cs), A. repeat split; auto.
    + constructor; auto. split; [|reflexivity]. unfold wf. cbn [data shape prod fold_right]. rewrite firstn_length, Nat.mul_1_r. apply Nat.min_l. lia.
    + cbn [app map concat data]. rewrite <- V. symmetry. apply firstn_skipn.
Qed.
Print Assumptions C71_all_vectors.

(** Mean fields: right for real matrices; for complex ones only the real parts are right. *)
Theorem C71_mean_fields (c h : carr) n m : shape h = [n; n] -> shape c = [n; m] ->
  exists w, mod_op c h = Ok w /\ wf w /\ shape w = [m; m] /\
    ((forall idx, in_range idx (shape c) -> snd (get c idx) = 0%R) ->
     forall p q, p < m -> q < m -> get w [p; q] = sumn n (fun x => sumn n (fun y => rmul (rconj (get c [x; p])) (rmul (get h [x; y]) (get c [y; q]))))) /\
    ((forall x y, x < n -> y < n -> snd (get h [x; y]) = 0%R) ->
     forall p q, p < m -> q < m -> get w [p; q] = RtoC (fst (sumn n (fun x => sumn n (fun y => rmul (rconj (get c [x; p])) (rmul (get h [x; y]) (get c [y; q]))))))).
Proof.
  intros Eh Ec. destruct (mod_ok h c n m Eh Ec) as (w & Ew & Ww & Sw & Vw). exists w. split; [exact Ew|]. split; [exact Ww|]. split; [exact Sw|]. split.
  - intros Re p q Hp Hq. rewrite Vw by auto. rewrite (two_parts_real n m); auto.
    + unfold comp, adj, entries. apply sumn_ext. intros x Hx. now rewrite <- sumn_scal_l.
    + intros x y Hx Hy. apply Re. rewrite Ec. apply in_range2; auto.
  - intros Re p q Hp Hq. rewrite Vw by auto. unfold two_parts.
    assert (Fs : forall k (f : nat -> C_star), RtoC (fst (sumn k f)) = sumn k (fun i => RtoC (fst (f i)))).
    { induction k as [|k IH]; intros f; [reflexivity|]. rewrite !sumn_S, <- IH, <- RtoC_add. reflexivity. }
    rewrite Fs. rewrite <- sumn_add. apply sumn_ext. intros x Hx. rewrite Fs. rewrite <- sumn_add. apply sumn_ext. intros y Hy. unfold entries. specialize (Re x y Hx Hy).
    destruct (get h [x; y]) as [hr hi], (get c [x; p]) as [ar ai], (get c [y; q]) as [br bi]. cbn in Re. subst hi. apply Ceq; cbn; ring.
Qed.
Print Assumptions C71_mean_fields.
(** For a complex matrix with orthonormal columns and a real symmetric operator they can be wrong. *)
Definition c_wit : carr := mkArr [2; 2] [r1; r0; r0; C_i].
Definition h_wit : carr := mkArr [2; 2] [r0; r1; r1; r0].
Theorem C71_mean_fields_refuted : exists w, orthonormal 2 2 (entries c_wit) /\ mod_op c_wit h_wit = Ok w /\ get w [0; 1] = r0 /\ sumn 2 (fun x => sumn 2 (fun y => rmul (rconj (get c_wit [x; 0])) (rmul (get h_wit [x; y]) (get c_wit [y; 1])))) = C_i.
Proof.
  destruct (C71_mean_fields c_wit h_wit 2 2 eq_refl eq_refl) as (w & E & _ & _ & _ & V). exists w. split; [|split; [exact E|]].
  - intros [|[|p]] [|[|q]] Hp Hq; try lia; cbn [sumn]; apply Ceq; cbn; ring.
  - assert (X : sumn 2 (fun x => sumn 2 (fun y => rmul (rconj (get c_wit [x; 0])) (rmul (get h_wit [x; y]) (get c_wit [y; 1])))) = C_i) by (apply Ceq; cbn; ring).
    split; [|exact X]. rewrite V; [|intros [|[|x]] [|[|y]] Hx Hy; try lia; reflexivity|lia|lia]. rewrite X. reflexivity.
Qed.
Print Assumptions C71_mean_fields_refuted.

(** The energy, for real matrices. *)
Theorem C71_energy sl (Cs : list carr) A vec h_terms : pieces sl Cs A vec -> positive sl -> all_real Cs -> all_orthonormal sl Cs ->
  Forall (well_formed (map fst sl)) h_terms -> Forall (readable (map fst sl) (map snd sl)) h_terms ->
  energy_expection (all_shapes sl) h_terms vec = Ok (braket (map fst sl) (psi (map entries Cs) (map snd sl) (get A)) (apply_ham (map fst sl) h_terms (psi (map entries Cs) (map snd sl) (get A)))).
Proof.
  intros (F & W & E & ->) P R O WF RD. apply energy_ok; auto; [now apply Forall2_shapes|split; auto|apply orthonormal_at; auto].
Qed.
Print Assumptions C71_energy.

(** The norm is that of the tensor. *)
Theorem C71_norm sl (Cs : list carr) A vec : pieces sl Cs A vec -> all_orthonormal sl Cs ->
  braket (map fst sl) (psi (map entries Cs) (map snd sl) (get A)) (psi (map entries Cs) (map snd sl) (get A)) = braket (map snd sl) (get A) (get A).
Proof. intros (F & W & E & ->) O. apply braket_same; auto; [now apply Forall2_shapes|apply orthonormal_at; auto]. Qed.
Print Assumptions C71_norm.

(** The effective Hamiltonian, for real matrices: the equations in [solves]. *)
Theorem C71_equations sl (Cs : list carr) A vec h_terms inv err : pieces sl Cs A vec -> positive sl -> all_real Cs -> all_orthonormal sl Cs ->
  Forall (well_formed (map fst sl)) h_terms -> Forall (readable (map fst sl) (map snd sl)) h_terms -> inverts (map snd sl) (get A) err inv ->
  exists Ds B w, h_matvec inv err (all_shapes sl) vec vec h_terms = Ok (mkArr [length vec] w) /\ pieces sl Ds B w /\ solves (map fst sl) (map snd sl) (map entries Cs) (get A) err h_terms (map entries Ds) (get B).
Proof.
  intros (F & W & E & ->) P R O WF RD I. destruct (matvec_ok sl Cs A) with (inv := inv) (err := err) (h_terms := h_terms) as (Ds & B & EB & LB & PB & SB); auto; try (now apply Forall2_shapes); try (split; auto); try (apply orthonormal_at; auto).
  - intros i Hi M (WM & SM & VM). apply I; auto. rewrite map_length in *. auto.
  - exists Ds, B, (flat (Ds ++ [B])). split; [exact EB|]. split; [|exact SB]. unfold all_shapes in PB. apply Forall2_app_inv_l in PB. destruct PB as (l1 & l2 & F1 & F2 & E12).
    inversion F2 as [|? B' ? ? (WB & EB') F3]; subst. inversion F3; subst. apply app_inj_tail in E12. destruct E12 as (-> & ->). split; [|split; [exact WB|split; [exact EB'|reflexivity]]].
    clear - F1. revert l1 F1. induction sl as [|s l IH]; intros l1 F1; inversion F1; subst; constructor; auto.
Qed.
Print Assumptions C71_equations.

(** Without the added number the derivative is the best one: its scalar products with all
    tangent vectors are those of the Hamiltonian applied to the state. *)
Theorem C71_variational sl (Cs : list carr) A vec h_terms inv : pieces sl Cs A vec -> positive sl -> all_real Cs -> all_orthonormal sl Cs ->
  Forall (well_formed (map fst sl)) h_terms -> Forall (readable (map fst sl) (map snd sl)) h_terms -> inverts (map snd sl) (get A) r0 inv ->
  exists Ds B w, h_matvec inv r0 (all_shapes sl) vec vec h_terms = Ok (mkArr [length vec] w) /\ pieces sl Ds B w /\ forall Fs G, braket (map fst sl) (tangent (map snd sl) (map entries Cs) (get A) Fs G) (tangent (map snd sl) (map entries Cs) (get A) (map entries Ds) (get B))
      = braket (map fst sl) (tangent (map snd sl) (map entries Cs) (get A) Fs G) (apply_ham (map fst sl) h_terms (psi (map entries Cs) (map snd sl) (get A))).
Proof.
  intros PI P R O WF RD I. destruct (C71_equations sl Cs A vec h_terms inv r0 PI P R O WF RD I) as (Ds & B & w & E & PD & SD). exists Ds, B, w. split; [exact E|]. split; [exact PD|].
  intros Fs G. destruct PI as (F & W & Es & _). apply var_all; auto; [now apply Forall2_shapes|apply orthonormal_at; auto].
Qed.
Print Assumptions C71_variational.

(** With one or two modes there is no condition on the sizes. *)
Theorem C71_two_modes (ns ms : list nat) (term : cterm) : length ms <= 2 -> readable ns ms term.
Proof.
  intros L. assert (G : forall j sh, length sh <= 2 -> equal_after j sh).
  { intros j [|a [|b [|c sh]]] H; cbn in H; try lia; unfold equal_after; destruct j as [|[|j]]; cbn; (exists 0; now constructor) || (exists b; constructor; auto) || (exists 0; destruct j; constructor). }
  split; intros; apply G; rewrite ?length_upd; auto.
Qed.
Print Assumptions C71_two_modes.

(** For complex matrices the energy can be wrong. *)
Definition a_wit : carr := mkArr [2] [r1; C_i].
Theorem C71_energy_refuted : pieces [(2, 2)] [c_wit] a_wit (data c_wit ++ data a_wit) /\ all_orthonormal [(2, 2)] [c_wit] /\
  energy_expection (all_shapes [(2, 2)]) [[(0, h_wit)]] (data c_wit ++ data a_wit) = Ok r0 /\
  braket [2] (psi [entries c_wit] [2] (get a_wit)) (apply_ham [2] [[(0, h_wit)]] (psi [entries c_wit] [2] (get a_wit))) = RtoC (- 2).
Proof.
  destruct C71_mean_fields_refuted as (w & O & E & V & _).
  assert (P : pieces [(2, 2)] [c_wit] a_wit (data c_wit ++ data a_wit)) by (split; [constructor; [split; reflexivity|constructor]|split; [reflexivity|split; reflexivity]]).
  split; [exact P|]. split; [constructor; [exact O|constructor]|]. split.
  - assert (X : exists e, energy_expection (all_shapes [(2, 2)]) [[(0, h_wit)]] (data c_wit ++ data a_wit) = Ok e /\ e = r0) by (eexists; split; [reflexivity|apply Ceq; creal]).
    destruct X as (e & -> & ->). reflexivity.
  - unfold braket, apply_ham, apply_term, psi. apply Ceq; cbn; ring.
Qed.
Print Assumptions C71_energy_refuted.

(** Three modes with fewer functions than grid points: a term with an operator on an earlier
    axis makes the step for the later matrix fail. *)
Definition c3 : carr := mkArr [2; 1] [r1; r0].
Definition a3 : carr := mkArr [1; 1; 1] [r1].
Definition v3 : list C_star := concat (map (@data C_star) [c3; c3; c3; a3]).
Theorem C71_three_modes_refuted : pieces [(2, 1); (2, 1); (2, 1)] [c3; c3; c3] a3 v3 /\ all_real [c3; c3; c3] /\ all_orthonormal [(2, 1); (2, 1); (2, 1)] [c3; c3; c3] /\
  well_formed [2; 2; 2] [(0, h_wit); (2, h_wit)] /\ inverts [1; 1; 1] (get a3) r0 (fun M => Ok M) /\
  h_matvec (fun M => Ok M) r0 (all_shapes [(2, 1); (2, 1); (2, 1)]) v3 v3 [[(0, h_wit); (2, h_wit)]] = Raise ValueError.
Proof.
  assert (O : orthonormal 2 1 (entries c3)) by (intros [|p] [|q] Hp Hq; try lia; apply Ceq; cbn; ring).
  split; [repeat split; try reflexivity; repeat (constructor; [split; reflexivity|]); constructor|].
  split; [unfold all_real; repeat constructor; intros idx R; apply in_range2_inv in R; destruct R as (i & j & -> & Hi & Hj); destruct i as [|[|i]], j as [|j]; try lia; reflexivity|].
  split; [unfold all_orthonormal; repeat (constructor; [exact O|]); constructor|].
  split; [split; [repeat constructor; cbn; intuition lia|repeat constructor; cbn; lia]|].
  split.
  - intros i M Hi WM SM VM. exists M. split; [reflexivity|]. split; [exact SM|]. intros p q Hp Hq.
    assert (Z : nth i [1; 1; 1] 0 = 1) by (destruct i as [|[|[|i]]]; cbn in Hi; try lia; reflexivity). rewrite Z in *.
    assert (p = 0) by lia. assert (q = 0) by lia. subst. rewrite (sumn_single _ 1 0) by (try lia; intros; lia). rewrite VM by lia.
    destruct i as [|[|[|i]]]; cbn in Hi; try lia; unfold density; apply Ceq; cbn; ring.
  - reflexivity.
Qed.
Print Assumptions C71_three_modes_refuted.

(** Examples: two modes with one function each on two points. *)
Definition h_ex : carr := mkArr [2; 2] [RtoC 1; RtoC 2; RtoC 2; RtoC 5].
Definition a_ex : carr := mkArr [1; 1] [r1].
Definition v_ex : list C_star := concat (map (@data C_star) [c3; c3; a_ex]).
Definition t_ex : list cterm := [[(0, h_ex)]; [(0, h_wit); (1, h_ex)]].
Example C71_example : pieces [(2, 1); (2, 1)] [c3; c3] a_ex v_ex /\ positive [(2, 1); (2, 1)] /\ all_real [c3; c3] /\ all_orthonormal [(2, 1); (2, 1)] [c3; c3] /\
  Forall (well_formed [2; 2]) t_ex /\ Forall (readable [2; 2] [1; 1]) t_ex /\ inverts [1; 1] (get a_ex) r0 (fun M => Ok M) /\
  (exists E, energy_expection (all_shapes [(2, 1); (2, 1)]) t_ex v_ex = Ok E /\ E = RtoC 1).
Proof.
  assert (O : orthonormal 2 1 (entries c3)) by (intros [|p] [|q] Hp Hq; try lia; apply Ceq; cbn; ring).
  split; [repeat split; try reflexivity; repeat (constructor; [split; reflexivity|]); constructor|].
  split; [unfold positive; repeat constructor; cbn; lia|].
  split; [unfold all_real; repeat constructor; intros idx R; apply in_range2_inv in R; destruct R as (i & j & -> & Hi & Hj); destruct i as [|[|i]], j as [|j]; try lia; reflexivity|].
  split; [unfold all_orthonormal; repeat (constructor; [exact O|]); constructor|].
  split; [unfold t_ex; repeat constructor; cbn; intuition lia|]. split; [unfold t_ex; repeat (constructor; [apply C71_two_modes; cbn; lia|]); constructor|]. split.
  - intros i M Hi WM SM VM. exists M. split; [reflexivity|]. split; [exact SM|]. intros p q Hp Hq.
    assert (Z : nth i [1; 1] 0 = 1) by (destruct i as [|[|i]]; cbn in Hi; try lia; reflexivity). rewrite Z in *.
    assert (p = 0) by lia. assert (q = 0) by lia. subst. rewrite (sumn_single _ 1 0) by (try lia; intros; lia). rewrite VM by lia.
    destruct i as [|[|i]]; cbn in Hi; try lia; unfold density; apply Ceq; cbn; ring.
  - eexists. split; [reflexivity|]. apply Ceq; creal.
Qed.
Example C71_product_example : exists w, h_matvec (fun M => Ok M) r0 (all_shapes [(2, 1)]) [r1; r0; r1] [r1; r0; r1] [[(0, h_ex)]] = Ok (mkArr [3] w) /\ w = [r0; RtoC 2; r1].
Proof.
  assert (O : orthonormal 2 1 (entries c3)) by (intros [|p] [|q] Hp Hq; try lia; apply Ceq; cbn; ring).
  destruct (C71_equations [(2, 1)] [c3] (mkArr [1] [r1]) [r1; r0; r1] [[(0, h_ex)]] (fun M => Ok M) r0) as (Ds & B & w & E & (F & WB & SB & ->) & H1 & H2 & H3).
  - repeat split; try reflexivity. repeat (constructor; [split; reflexivity|]). constructor.
  - unfold positive. repeat constructor; cbn; lia.
  - unfold all_real. repeat constructor. intros idx R. apply in_range2_inv in R. destruct R as (i & j & -> & Hi & Hj). destruct i as [|[|i]], j as [|j]; try lia; reflexivity.
  - unfold all_orthonormal. repeat (constructor; [exact O|]). constructor.
  - repeat constructor; cbn; intuition lia.
  - constructor; [apply C71_two_modes; cbn; lia|constructor].
  - intros i M Hi WM SM VM. exists M. split; [reflexivity|]. split; [exact SM|]. intros p q Hp Hq. cbn in Hi. assert (i = 0) by lia. subst i. cbn [map snd nth] in *.
    assert (p = 0) by lia. assert (q = 0) by lia. subst. rewrite (sumn_single _ 1 0) by (try lia; intros; lia). rewrite VM by lia. unfold density. apply Ceq; cbn; ring.
  - inversion F as [|? D ? Ds' (WD & SD) F']; subst. inversion F'; subst. destruct D as [sd [|d0 [|d1 [|d2 ds]]]]; cbn in SD; subst sd; try discriminate WD. destruct B as [sb [|b [|b' bs]]]; cbn in SB; subst sb; try discriminate WB.
    eexists. split; [exact E|]. cbn [map app concat data].
    specialize (H1 [0] ltac:(repeat constructor)). specialize (H2 0 ltac:(cbn; lia) 0 0 ltac:(cbn; lia) ltac:(cbn; lia)).
    specialize (H3 0 (fun x q => if x =? 1 then r1 else r0) ltac:(cbn; lia)). clear E.
    assert (X0 : d0 = r0).
    { rewrite <- H2. destruct d0 as [x y], d1 as [z t]. apply Ceq; cbn; ring. }
    assert (X1 : d1 = RtoC 2).
    { refine (eq_trans _ (eq_trans (H3 _) _)).
      - destruct d0 as [x y], d1 as [z t]. apply Ceq; cbn; ring.
      - intros [|p] [|q] Hp Hq; cbn in Hp, Hq; try lia. apply Ceq; cbn; ring.
      - apply Ceq; cbn; ring. }
    assert (X2 : b = r1).
    { refine (eq_trans _ (eq_trans H1 _)); [reflexivity|]. apply Ceq; cbn; ring. }
    now rewrite X0, X1, X2.
Qed.
