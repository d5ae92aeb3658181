(** The derivative that a solver is told, and the course of a step. *)
From Coq Require Import String List Arith Bool Lia Reals.
From Verif Require Import Py Alg ListX NdArray_Model NdArray_Proof Contract_Model Net_Model Net_Spec Sweep_Spec Trav_Proof Acyc_Proof Contraction_Proof
  Link_Spec Link_Proof Env_Spec TEnv_Proof EnvThm_Proof State_Spec State_Proof Cache_Model Cache_Spec Cache_Proof CacheExact_Proof Eom_Spec Eom_Proof Direct_Model Direct_Spec
  DirectAlg_Proof DirectSem_Proof DirectGrad_Proof DirectRun_Proof DirectThm_Proof Rk4_Spec Rk4_Model Rk4_Proof Rk4Thm_Proof Normalize_Model Normalize_Spec Propagate_Model Ode_Spec Ode_Model Vec_Spec Vec_Proof Ode_Proof.
Import ListNotations.
Local Open Scope nat_scope.
Local Open Scope list_scope.

Lemma sumL_match {K : StarRing} {X Y} (f : X -> K) (g : Y -> K) : forall l m, length l = length m ->
  (forall n a b, nth_error l n = Some a -> nth_error m n = Some b -> f a = g b) -> sumL l f = sumL m g.
Proof.
  induction l as [|a l IH]; intros [|b m] L H; try discriminate; [reflexivity|]. rewrite !sumL_cons. f_equal; [apply (H 0); reflexivity|].
  apply IH; [injection L; auto|]. intros n a' b' Ha Hb. apply (H (S n)); auto.
Qed.

Section Field.
Variable K : StarRing.
Add Ring Kring_ode : (r_theory K).
Lemma pairing_indicator sh x (c : arr K) : shape c = sh -> in_range x sh -> pairing (indicator sh x) c = get c x.
Proof.
  intros Sc Hx. unfold pairing. rewrite Sc. rewrite (sumL_single K (indices sh) x).
  - unfold indicator. rewrite get_build by auto. destruct (list_eq_dec Nat.eq_dec x x); [|congruence]. ring.
  - apply NoDup_indices.
  - apply in_indices. auto.
  - intros z Hz Nz. unfold indicator. rewrite get_build by (apply in_indices; auto). destruct (list_eq_dec Nat.eq_dec x z); [congruence|]. ring.
Qed.

Variable T : Type.
Variable sys : system K T.
Variable fuel : nat.
Variable invert : option (arr K) -> nat -> res (arr K).
Variable time : T.
Notation terms := (all_terms K T sys time).
Variable s : state K.
Variable ks0 : list (nat * tree * nat).
Variable A : id -> arr K.
Notation h0 := (sheap K s).
Notation r := (sroot K s).
Notation R := (Nd r ks0).
Hypothesis Can : canonical fuel h0 r ks0 A terms.
Hypothesis Yi : yields invert h0 A R.
Variable ax : id -> option nat.
Hypothesis Hax : forall t, oaxis (hget h0 t) = ax t.

Lemma ready_ext iv e r' ks' ax1 ax2 sh mss tm : (forall t, ax1 t = ax2 t) -> ready K T sys iv e r' ks' ax1 sh mss tm -> ready K T sys iv e r' ks' ax2 sh mss tm.
Proof. intros E [R1 R2 R3]. constructor; auto. intros t a Ht Ea. apply R3; auto. rewrite E. auto. Qed.
Lemma placed_ext r' ks' ax1 ax2 sh tm h Y : (forall t, ax1 t = ax2 t) -> placed K T sys r' ks' ax1 sh tm h Y -> placed K T sys r' ks' ax2 sh tm h Y.
Proof. intros E [P1 P2 P3 P4 P5 P6 P7 P8]. constructor; auto. intros t Ht. rewrite <- E. auto. Qed.

(** What [_form_env] and [_form_inv_density] leave, and the derivative that [diff] then gives. *)
Lemma formed : exists s1 iv s2, form_env K T sys fuel false time s = Ok s1 /\ form_inv_density K fuel invert s1 = Ok (iv, s2) /\
  let mss := fun t => fields (senv K s2) (length terms) (ndim (A t)) t in
  ready K T sys iv (senv K s2) r ks0 ax (fun t => shape (A t)) mss time /\
  placed K T sys r ks0 ax (fun t => shape (A t)) time (sheap K s2) A /\ sroot K s2 = r /\ core K h0 (sheap K s2) /\
  inverse_axes invert ax A R (axis_of K iv ax) /\
  forall icoef e0 y, length y = total (asize A) (nids R) ->
    answer K iv r ks0 ax A mss icoef e0 y = flow icoef e0 A R terms (axis_of K iv ax) y.
Proof.
  destruct (start K T sys fuel invert time s ks0 A Can Yi) as (s1 & iv & s2 & E1 & E2 & Rd & P & Er & C & Gd & M).
  apply (ready_ext _ _ _ _ _ ax) in Rd; auto. apply (placed_ext _ _ _ ax) in P; auto.
  exists s1, iv, s2. split; auto. split; auto. cbv zeta. split; auto. split; auto. split; auto. split; auto. split.
  - intros t Ht. unfold axis_of. destruct (ax t) as [a|] eqn:Ea; auto. rewrite <- Hax in Ea.
    destruct (Gd t Ht a Ea) as (rho & m & Em & De & Iv). exists rho, m. rewrite Em. auto.
  - intros icoef e0 y Ly. unfold answer, flow. f_equal. apply map_ext_in. intros t Ht. apply map_ext_in. intros x Hx. apply in_indices in Hx.
    pose proof (part_wf K A R y t Ht ltac:(lia)) as Wp. set (p := part A R y t) in *. assert (Sp : shape p = shape (A t)) by reflexivity.
    unfold frozen, velocity. f_equal. f_equal. apply sumL_match.
    { apply (rd_len _ _ _ _ _ _ _ _ _ _ _ Rd t Ht). }
    intros n ms term Hm Hn. destruct (M t n term Ht Hn) as (ms' & Em & Gm). assert (ms' = ms) by congruence. subst ms'.
    destruct (Gm p Wp Sp) as (c & (Wc & Sc & Gc) & Pc).
    assert (Ag : agree K (shape (A t)) (everywhere (shape (A t)) 0 ms (get p)) (gradient A R t term p)).
    { intros z Hz. unfold gradient. rewrite <- Pc by (try reflexivity; apply wf_build). rewrite pairing_indicator by auto. symmetry. auto. }
    unfold slope. destruct (axis_of K iv ax t) as [(a, m)|] eqn:Ea; [|apply Ag; auto].
    assert (Ha : a < length (shape (A t))).
    { unfold axis_of in Ea. destruct (ax t) as [a'|] eqn:Ea'; [|discriminate]. destruct (iv t); [|discriminate]. injection Ea as -> _.
      apply (rd_inv _ _ _ _ _ _ _ _ _ _ _ Rd t a Ht Ea'). }
    apply beyond_agree; auto; [intros z Hz; reflexivity|]. apply along_agree; auto.
Qed.
End Field.
