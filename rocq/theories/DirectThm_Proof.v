(** The derivatives of the direct scheme as a whole. *)
From Coq Require Import String List Arith Bool Lia Permutation.
From Verif Require Import Py Alg ListX NdArray_Model NdArray_Proof Contract_Model Contract_Spec Contract_Proof Mode_Proof Net_Model Net_Spec Sweep_Spec Trav_Proof Acyc_Proof Contraction_Proof
  Link_Spec Link_Proof Env_Spec Env_Proof TEnv_Proof EnvSem_Proof EnvThm_Proof Unite_Proof State_Spec State_Proof Cache_Model Cache_Spec Cache_Proof CacheExact_Proof Reroot_Proof Eom_Spec Eom_Proof Direct_Model Direct_Spec
  DirectAlg_Proof DirectSem_Proof DirectGrad_Proof DirectRun_Proof.
Import ListNotations.
Local Open Scope nat_scope.
Local Open Scope list_scope.

Section DirectThm.
Variable K : StarRing.
Add Ring Kring_dthm : (r_theory K).
Implicit Types h : heap K.
Local Open Scope star_scope.

(** ** Linearity *)
Definition combo (D : arr K) (Xs : list (arr K)) (c : K) (sh : list nat) : Prop :=
  shape D = sh /\ Forall (fun X => shape X = sh) Xs /\ forall idx, in_range idx sh -> get D idx = c * sumL Xs (fun X => get X idx).
Lemma crossed_combo f D Xs c sh ax p q : combo D Xs c sh -> (ax < length sh)%nat -> (q < nth ax sh O)%nat -> crossed f D ax p q = c * sumL Xs (fun X => crossed f X ax p q).
Proof.
  intros (SD & SX & G) Hax Hq. unfold crossed. rewrite SD.
  rewrite (sumL_ext_in K Xs (fun X => sumL (indices (del ax (shape X))) (fun x => get f (ins ax p x) * get X (ins ax q x))) (fun X => sumL (indices (del ax sh)) (fun x => get f (ins ax p x) * get X (ins ax q x)))).
  2:{ intros X HX. rewrite Forall_forall in SX. rewrite (SX X HX). reflexivity. }
  rewrite sumL_swap, <- sumL_scal_l. apply sum_indices_ext. intros x Hx. rewrite G by (apply in_range_ins_del; auto). rewrite sumL_scal_l. ring.
Qed.
Lemma joined_combo F d f D Xs c sh ax : combo D Xs c sh -> (ax < length sh)%nat -> nth ax sh O = d -> joined K F d ax f D = c * sumL Xs (fun X => joined K F d ax f X).
Proof.
  intros C Hax Ed. unfold joined. unfold sumn at 3. rewrite sumL_swap, <- sumL_scal_l. apply sumn_ext. intros p Hp.
  unfold sumn at 2. rewrite sumL_swap, <- sumL_scal_l. apply sumn_ext. intros q Hq. rewrite (crossed_combo f D Xs c sh ax q p C Hax) by (rewrite Ed; auto).
  rewrite sumL_scal_l. ring.
Qed.

Section Net.
Variable h0 : heap K.
Variable r : id.
Variable ks0 : list kid.
Variable A : id -> arr K.
Notation R := (Nd r ks0).
Variable fuel : nat.
Variable invert : option (arr K) -> nat -> res (arr K).
Variable terms : list (list (id * arr K)).
Hypothesis Can : canonical fuel h0 r ks0 A terms.

Lemma can_parts : hangs h0 None R /\ NoDup (ids R) /\ fits A None 0 R /\ (length (ids R) <= fuel)%nat /\ dicts_ok h0 /\ oriented h0 None R /\
  (forall n, In n (nids R) -> oarr (hget h0 n) = Some (A n)) /\ (forall l, In l (lids R) -> oaxis (hget h0 l) = None) /\
  (forall n, In n (nids R) -> n <> r -> unit_along (A n) (oaxis (hget h0 n))) /\ Forall (suits h0 R A) terms.
Proof. destruct Can as ((C1 & C2 & C3 & C4 & C5 & C6 & C7) & C8 & C9 & C10 & C11). repeat (split; auto). Qed.

Lemma derived_combo icoef e0 t D : derived K invert h0 r ks0 A terms icoef e0 t D -> t <> r ->
  exists Xs, Forall2 (contrib K invert h0 r ks0 A t) terms Xs /\ combo D Xs icoef (shape (A t)).
Proof.
  intros (WD & SD & Xs & Fx & G) Nt. exists Xs. split; auto. split; auto. split.
  - clear -Fx. induction Fx as [|term X tm Xs Hx Fx IH]; constructor; auto. apply Hx.
  - intros idx Hi. rewrite G by auto. apply Nat.eqb_neq in Nt. rewrite Nt. ring.
Qed.
Lemma derived_gauged icoef e0 t D : In t (nids R) -> derived K invert h0 r ks0 A terms icoef e0 t D -> gauged K h0 A t D.
Proof.
  destruct can_parts as (H & ND & F & Hf & DO & Or & Ar & Lx & U & Su).
  intros Ht De ax p q Ea Hp Hq. assert (Nt : t <> r) by (intros ->; rewrite (r_axis K h0 r ks0 Or) in Ea; discriminate).
  destruct (derived_combo icoef e0 t D De Nt) as (Xs & Fx & C).
  destruct (view_exists K h0 r ks0 A H F DO Or t Ht Nt) as (k1 & k & k2 & V). pose proof V as (_ & Ek & _ & _ & _ & _ & Hi & _).
  assert (ax = k_i k) by congruence. subst ax. rewrite (crossed_combo _ D Xs icoef (shape (A t)) (k_i k) p q C Hi Hq).
  rewrite sumL_zero_in; [ring|]. intros X HX. clear -Fx HX Ea Hp Hq. induction Fx as [|term X' tm Xs Hx Fx IH]; [destruct HX|].
  destruct HX as [->|HX]; auto. destruct Hx as (_ & _ & Ga & _). apply Ga; auto.
Qed.
Lemma sum_contrib t f Xs : forall tms, Forall2 (contrib K invert h0 r ks0 A t) tms Xs -> inverts invert h0 A R t -> allowed h0 A t f ->
  sumL Xs (fun X => overlap (exchanged A t X) (varied A t f) R) = sumL tms (element A (varied A t f) R).
Proof.
  intros tms Fx Iv Al. induction Fx as [|term X tm Xs Hx Fx IH]; [reflexivity|]. rewrite !sumL_cons, IH. destruct Hx as (_ & _ & _ & G). rewrite G by auto. reflexivity.
Qed.
Lemma derived_overlap icoef e0 t D f : In t (nids R) -> derived K invert h0 r ks0 A terms icoef e0 t D -> inverts invert h0 A R t -> allowed h0 A t f ->
  overlap (exchanged A t D) (varied A t f) R = icoef * sumL terms (element A (varied A t f) R) - shift e0 * overlap A (varied A t f) R.
Proof.
  destruct can_parts as (H & ND & F & Hf & DO & Or & Ar & Lx & U & Su).
  intros Ht De Iv Al. pose proof Al as (Wf & Sf & Orf).
  rewrite (overlap_plain K A R t f). pose proof De as (WD & SD & Xs & Fx & G).
  pose proof (fits_wf K A R None 0 F t Ht) as Wt.
  assert (WX : Forall (fun X => wf X /\ shape X = shape (A t)) Xs) by (clear -Fx; induction Fx as [|term X tm Xs Hx Fx IH]; constructor; auto; destruct Hx as (W & S & _); auto).
  rewrite <- (sum_contrib t f Xs terms Fx Iv Al).
  destruct (Nat.eq_dec t r) as [->|Nt].
  - rewrite (overlap_root K h0 r ks0 A H ND F Or U D f WD SD Wf Sf), (overlap_root K h0 r ks0 A H ND F Or U (A r) f Wt eq_refl Wf Sf).
    rewrite (sumL_ext_in K Xs (fun X => overlap (exchanged A r X) (varied A r f) R) (fun X => sumL (indices (shape (A r))) (fun i => get f i * get X i))).
    2:{ intros X HX. rewrite Forall_forall in WX. destruct (WX X HX) as (W & S). rewrite (overlap_root K h0 r ks0 A H ND F Or U X f W S Wf Sf). unfold pairing. rewrite S. reflexivity. }
    unfold pairing. rewrite SD, sumL_swap, <- !sumL_scal_l, <- sumL_sub. apply sum_indices_ext. intros i Hi. rewrite G by auto. rewrite Nat.eqb_refl, sumL_scal_l. ring.
  - destruct (derived_combo icoef e0 t D De Nt) as (Xs' & Fx' & C).
    rewrite (sum_contrib t f Xs terms Fx Iv Al), <- (sum_contrib t f Xs' terms Fx' Iv Al). clear Xs Fx G WX.
    destruct (view_exists K h0 r ks0 A H F DO Or t Ht Nt) as (k1 & k & k2 & V). pose proof V as (_ & Ek & _ & _ & _ & _ & Hi & _).
    assert (WX : Forall (fun X => wf X /\ shape X = shape (A t)) Xs') by (clear -Fx'; induction Fx' as [|term X tm Xs Hx Fx IH]; constructor; auto; destruct Hx as (W & S & _); auto).
    rewrite (overlap_self K h0 r ks0 A H ND F Or U t k1 k k2 D f V Ht WD Wf SD Sf).
    rewrite (joined_combo _ _ f D Xs' icoef (shape (A t)) (k_i k) C Hi eq_refl).
    rewrite (overlap_self K h0 r ks0 A H ND F Or U t k1 k k2 (A t) f V Ht Wt Wf eq_refl Sf).
    rewrite (sumL_ext_in K Xs' (fun X => overlap (exchanged A t X) (varied A t f) R) (fun X => joined K (through K A t k) (nth (k_i k) (shape (A t)) O) (k_i k) f X)).
    2:{ intros X HX. rewrite Forall_forall in WX. destruct (WX X HX) as (W & S). apply (overlap_self K h0 r ks0 A H ND F Or U t k1 k k2 X f V Ht W Wf S Sf). }
    replace (joined K (through K A t k) (nth (k_i k) (shape (A t)) O) (k_i k) f (A t)) with (0 : K); [ring|]. symmetry. unfold joined. apply sumn_zero. intros p Hp. apply sumn_zero. intros q Hq.
    rewrite Orf by auto. ring.
Qed.
Lemma rate_alone icoef e0 (D : id -> arr K) t f : In t (nids R) -> (forall u, In u (nids R) -> derived K invert h0 r ks0 A terms icoef e0 u (D u)) -> allowed h0 A t f ->
  rate A D (varied A t f) R = overlap (exchanged A t (D t)) (varied A t f) R.
Proof.
  destruct can_parts as (H & ND & F & Hf & DO & Or & Ar & Lx & U & Su).
  intros Ht De Al. unfold rate. apply (sumL_single K (nids R) t (fun u => overlap (exchanged A u (D u)) (varied A t f) R)); auto.
  - apply (nids_nodup r ks0 ND).
  - intros u Hu Nu. pose proof (De u Hu) as Du. pose proof (derived_gauged icoef e0 u _ Hu Du) as Ga. destruct Du as (WD & SD & _). destruct Al as (Wf & Sf & Orf).
    destruct (Nat.eq_dec t r) as [->|Nt].
    + apply (overlap_root_other K h0 r ks0 A H ND F Or U u (D u) f Hu Nu WD SD Ga Wf Sf).
    + destruct (view_exists K h0 r ks0 A H F DO Or t Ht Nt) as (k1 & k & k2 & V).
      apply (overlap_other K h0 r ks0 A H ND F Or U t k1 k k2 u (D u) f V Ht Hu Nu WD SD Ga). split; auto.
Qed.
End Net.
End DirectThm.
