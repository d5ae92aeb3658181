(** Norms of networks in canonical form; what steps keep, put together. *)
From Coq Require Import String List Arith Bool ZArith Lia Permutation.
From Verif Require Import Py Alg ListX NdArray_Model NdArray_Proof Contract_Model Contract_Spec Net_Model Net_Spec Trav_Proof Acyc_Proof Sweep_Spec Env_Spec Env_Proof TEnv_Proof EnvSem_Proof EnvThm_Proof CacheMove_Proof
  Move_Spec Link_Spec Link_Proof State_Spec State_Proof Cache_Model Cache_Proof CacheExact_Proof Reroot_Proof Eom_Spec Eom_Proof Direct_Spec DirectAlg_Proof Norm_Spec NormAlg_Proof Norm_Proof.
Import ListNotations.
Local Open Scope nat_scope.
Local Open Scope list_scope.

Section NormEnd.
Variable K : StarRing.
Add Ring Kring_nend : (r_theory K).
Implicit Types h : heap K.
Implicit Types A B : id -> arr K.
Local Open Scope star_scope.

(** ** The norm is that of the root *)
Lemma plain_kids h A B n ks : oriented h None (Nd n ks) -> fits A None O (Nd n ks) ->
  (forall m, In m (flat_map (fun k => nids (k_t k)) ks) -> B m = arr_conj (A m) /\ unit_along (A m) (oaxis (hget h m))) ->
  Forall2 (plain K A B) ks (shape (A n)).
Proof.
  intros O F N'. inversion F as [|? ? ? ? W P X I G]; subst. inversion O as [|? ? ? Ea Fo]; subst. cbn [others] in G.
  clear -Fo G N'. induction G as [|k m ks ms Hk G IHG]; constructor; inversion Fo; subst.
  - intros p q Hp Hq. unfold ekid. apply (iso_erec K h A B (k_t k) (k_j k) m); auto. intros x Hx. apply N'. cbn [flat_map]. apply in_app_iff. auto.
  - apply IHG; auto. intros x Hx. apply N'. cbn [flat_map]. apply in_app_iff. auto.
Qed.
Lemma canonical_norm h R A : network h R A -> canonical_about h R A -> state_norm R A = sqnorm (data (A (top R))).
Proof.
  intros N C. pose proof N as (_ & _ & NS & H & Or & F & _). destruct (network_top K R A h N) as (ks & ER & _).
  destruct (root_array K h R A (top R) N eq_refl) as (_ & _ & W & _).
  pose (B := fun n => arr_conj (A n)). assert (ND : NoDup (ids R)) by (eapply hangs_nodup; eauto).
  assert (FB : fits B None O R). { apply (fits_shapes K A); auto. intros n Hn. split; [|reflexivity]. apply wf_conj. eapply fits_wf; eauto. }
  assert (E1 : state_norm R A = overlap A B R).
  { unfold state_norm, overlap. apply sumL_ext. intros v. f_equal. unfold dense, B. rewrite amp_conj. reflexivity. }
  rewrite E1, (overlap_erec K A B R F FB); auto.
  - rewrite ER in *. cbn [top] in *. rewrite top_root; [|reflexivity|].
    + rewrite sqnorm_get by auto. unfold pairing, B. apply sumL_ext. intros i. rewrite get_conj. ring.
    + apply (plain_kids h A B (top R) ks Or F). intros m Hm. split; [reflexivity|]. apply C; [right; auto|]. cbn [top].
      cbn [ids] in ND. apply NoDup_cons_iff in ND. intros ->. apply ND. apply in_flat_map in Hm. destruct Hm as (k & Hk & Hm). apply in_flat_map. exists k. split; auto.
      apply nids_ids. auto.
  - apply (lids_nodup K h R None H). apply nids_nodup with (h := h); auto.
  - rewrite ER. reflexivity.
  - apply ldims_agree. intros n. reflexivity.
Qed.

(** ** Invariants at the start and at the end *)
Lemma held_start o h R A : network h R A -> canonical_about h R A -> norm_is K o (sqnorm (data (A (top R)))) -> held K o h (top R).
Proof.
  intros N C Nm R' A' N' Et. assert (R' = R) as ->. { apply (hangs_det K h R' None R); [apply N'|apply N|congruence]. }
  assert (E : forall t, In t (nids R) -> A' t = A t).
  { intros t Ht. pose proof N as (_ & _ & _ & _ & _ & _ & At). pose proof N' as (_ & _ & _ & _ & _ & _ & At'). destruct (At t Ht) as (E1 & _). destruct (At' t Ht) as (E2 & _). congruence. }
  split.
  - intros t Ht Nt. rewrite E by auto. apply C; auto.
  - destruct (root_array K h R A (top R) N eq_refl) as (Hin & _). rewrite E; auto.
Qed.
Lemma kept (ok : option K -> Prop) h h' R A : network h R A -> canonical_about h R A -> ok None ->
  (forall o, ok o -> held K o h (top R) -> held K o h' (top R) /\ exists A', network h' R A') ->
  exists A', network h' R A' /\ canonical_about h' R A' /\ (ok (Some (state_norm R A)) -> state_norm R A' = state_norm R A).
Proof.
  intros N C O1 H. destruct (H None O1) as (H1 & A' & N'); [apply (held_start None h R A); auto; exact Logic.I|].
  destruct (H1 R A' N' eq_refl) as (C' & _). exists A'. split; auto. split; auto. intros O2.
  destruct (H _ O2) as (H2 & _). { apply (held_start _ h R A); auto. cbn. symmetry. apply (canonical_norm h); auto. }
  destruct (H2 R A' N' eq_refl) as (_ & E). cbn in E. rewrite (canonical_norm h' R A'); auto.
Qed.
End NormEnd.
