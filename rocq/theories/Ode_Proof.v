(** The function [diff] of the direct scheme, and any solver that asks it. *)
From Coq Require Import String List Arith Bool Lia.
From Verif Require Import Py Alg ListX NdArray_Model NdArray_Proof Contract_Model Net_Model Net_Spec Sweep_Spec Trav_Proof Acyc_Proof Contraction_Proof
  Link_Spec Link_Proof Env_Spec TEnv_Proof EnvThm_Proof State_Spec State_Proof Cache_Model Cache_Spec Cache_Proof CacheExact_Proof Eom_Spec Eom_Proof Direct_Model Direct_Spec
  DirectAlg_Proof DirectSem_Proof DirectGrad_Proof DirectRun_Proof DirectThm_Proof Rk4_Spec Rk4_Model Rk4_Proof Rk4Thm_Proof Normalize_Model Propagate_Model Ode_Spec Ode_Model Vec_Spec Vec_Proof.
Import ListNotations.
Local Open Scope nat_scope.
Local Open Scope list_scope.

Lemma all_terms_len (K : StarRing) T (sys : system K T) t t' : length (all_terms K T sys t) = length (all_terms K T sys t').
Proof. unfold all_terms. rewrite !app_length. destruct (f_list K T sys); [rewrite !map_length|]; reflexivity. Qed.
Lemma all_terms_keys (K : StarRing) T (sys : system K T) t t' term p : In term (all_terms K T sys t) -> In p term ->
  exists term' p', In term' (all_terms K T sys t') /\ In p' term' /\ fst p' = fst p.
Proof.
  unfold all_terms. intros Ht Hp. apply in_app_or in Ht. destruct Ht as [Ht|Ht].
  - exists term, p. split; [apply in_or_app; auto|auto].
  - destruct (f_list K T sys) as [f|]; [|destruct Ht]. apply in_map_iff in Ht. destruct Ht as (g & <- & Hg). apply in_map_iff in Hp. destruct Hp as (u & <- & Hu).
    exists (map (fun p => (fst p, snd p t')) g), (fst u, snd u t'). split; [apply in_or_app; right; apply in_map_iff; eauto|]. split; [|reflexivity]. apply in_map_iff. eauto.
Qed.

Lemma heights (r : id) ks fuel : length (ids (Nd r ks)) <= fuel -> height (Nd r ks) <= fuel.
Proof. intros H. pose proof (size_height (Nd r ks)). lia. Qed.

Section Vectors.
Variable K : StarRing.
Implicit Types A : id -> arr K.
Lemma tensorize_tree (h : heap K) t fuel A v : hangs h None t -> NoDup (nids t) -> oaxis (hget h (top t)) = None -> height t <= fuel ->
  (forall n, In n (nids t) -> oarr (hget h n) = Some (A n)) -> total (asize A) (nids t) <= length v ->
  exists h', tensorize fuel h (top t) v false = Ok h' /\ length h' = length h /\
    (forall n, In n (nids t) -> hget h' n = put_arr (Some (part A t v n)) (hget h n)) /\ (forall n, ~ In n (nids t) -> hget h' n = hget h n).
Proof.
  intros H ND Ax Hf N L. unfold tensorize. rewrite visit_nids by auto. cbn [bind].
  apply (loop_ok K A v false (nids t) ND h 0); auto. intros n Hn. split; auto. eapply hangs_lt; eauto. now apply nids_ids.
Qed.
Lemma part_wf A R v n : In n (nids R) -> total (asize A) (nids R) <= length v -> wf (part A R v n).
Proof. intros Hn L. unfold wf, part. cbn [data shape]. apply slice_length. eapply Nat.le_trans; [apply offset_bound; exact Hn|exact L]. Qed.
Lemma part_shapes A A' R v n : (forall m, In m (nids R) -> shape (A m) = shape (A' m)) -> In n (nids R) -> part A R v n = part A' R v n.
Proof.
  intros S Hn. unfold part. rewrite (S n Hn). f_equal. unfold asize at 2 4. rewrite (S n Hn). f_equal. apply offset_ext. intros m Hm. unfold asize. rewrite S; auto.
Qed.
Lemma part_vector A R n : (forall m, In m (nids R) -> wf (A m)) -> In n (nids R) -> part A R (vector A R) n = A n.
Proof. intros W Hn. unfold part, vector. rewrite vec_slices by auto. destruct (A n); reflexivity. Qed.
Lemma vector_len A R : (forall m, In m (nids R) -> wf (A m)) -> length (vector A R) = total (asize A) (nids R).
Proof. intros W. unfold vector. rewrite total_concat. apply total_ext. intros n Hn. apply W. auto. Qed.
End Vectors.

Section Diff.
Variable K : StarRing.
Variable T : Type.
Variable sys : system K T.
Variable fuel : nat.
Variable iv : inverses K.
Variable e : envs K.
Variable r : id.
Variable ks0 : list (nat * tree * nat).
Notation R := (Nd r ks0).
Variable ax : id -> option nat.
Variable B : id -> arr K.
Variable mss : id -> list (list (option (arr K))).
Notation sh := (fun t => shape (B t)).
Notation ready := (ready K T sys iv e r ks0 ax sh mss).
Notation placed := (placed K T sys r ks0 ax sh).
Notation ar := (fun t => axis_of K iv ax t).
Variable time0 : T.
Hypothesis Rd : ready time0.
Hypothesis ND : NoDup (ids R).
Hypothesis Hf : length (ids R) <= fuel.
Hypothesis Ne : all_terms K T sys time0 <> [].

Lemma ready_time time : ready time.
Proof.
  destruct Rd as [R1 R2 R3]. constructor; auto. intros t Ht. rewrite R1 by auto. apply all_terms_len.
Qed.
Lemma placed_time h Y time : placed time0 h Y -> placed time h Y.
Proof.
  intros [P1 P2 P3 P4 P5 P6 P7 P8]. constructor; auto. intros term p Ht Hp. destruct (all_terms_keys K T sys time time0 term p Ht Hp) as (term' & p' & Ht' & Hp' & <-). eauto.
Qed.
Lemma nonempty time : all_terms K T sys time <> [].
Proof. intros E. apply Ne. pose proof (all_terms_len K T sys time0 time) as L. rewrite E in L. destruct (all_terms K T sys time0); [auto|discriminate]. Qed.
Lemma nd_nids : NoDup (nids R).
Proof. apply (DirectRun_Proof.nids_nodup r ks0); auto. Qed.

Definition answer (icoef : K) (e0 : option K) (y : list K) : list K :=
  concat (map (fun t => map (frozen icoef e0 (sh t) (ar t) (mss t) (get (part B R y t))) (indices (sh t))) (nids R)).
Lemma answer_len icoef e0 y : length (answer icoef e0 y) = total (asize B) (nids R).
Proof. unfold answer. rewrite total_concat. apply total_ext. intros n Hn. rewrite map_length, length_indices. reflexivity. Qed.

Lemma diff_run imaginary icoef e0 zero t y c s Y : placed time0 (sheap K s) Y -> sroot K s = r -> senv K s = e -> length y = total (asize B) (nids R) ->
  exists s', direct_diff K T sys fuel imaginary icoef e0 zero t y (c, iv, s) = Ok (answer icoef e0 y, (if imaginary then None else Some t, iv, s')) /\
    frame K s s' /\ placed time0 (sheap K s') Y.
Proof.
  intros P Er Ee Ly. unfold direct_diff. rewrite Er.
  assert (Ax : forall h Z, placed time0 h Z -> oaxis (hget h (top R)) = None) by (intros h Z [_ O _ _ _ _ _ _]; apply (r_axis K h r ks0 O)).
  pose proof (heights r ks0 fuel Hf) as Hh.
  change (vectorize fuel (sheap K s) r) with (vectorize fuel (sheap K s) (top R)).
  rewrite (vectorize_ok K (sheap K s) R fuel Y false (pl_hangs _ _ _ _ _ _ _ _ _ _ P) (Ax _ _ P) Hh) by (apply P). cbn [bind].
  assert (SY : forall n, In n (nids R) -> shape (Y n) = shape (B n)) by (intros n Hn; apply (pl_sh _ _ _ _ _ _ _ _ _ _ P n Hn)).
  assert (WY : forall n, In n (nids R) -> wf (Y n)) by (intros n Hn; apply (pl_sh _ _ _ _ _ _ _ _ _ _ P n Hn)).
  assert (TY : total (asize Y) (nids R) = total (asize B) (nids R)) by (apply total_ext; intros n Hn; unfold asize; rewrite SY; auto).
  destruct (tensorize_tree K (sheap K s) R fuel Y y (pl_hangs _ _ _ _ _ _ _ _ _ _ P) nd_nids (Ax _ _ P) Hh) as (h1 & E1 & L1 & G1 & O1); [apply P|lia|].
  cbn [top] in E1. rewrite E1. cbn [bind]. set (s1 := with_heap K s h1).
  assert (F1 : frame K s s1).
  { split; auto. split; auto. split; auto. intros x. cbn [s1 with_heap sheap]. destruct (in_dec Nat.eq_dec x (nids R)) as [Hx|Hx]; [rewrite G1 by auto; auto|rewrite O1 by auto; auto]. }
  assert (P1 : placed time0 h1 (part B R y)).
  { apply (placed_moved K T sys r ks0 ax sh time0 s s1 Y _ P F1). intros n Hn. cbn [s1 with_heap sheap]. rewrite G1 by auto. cbn [put_arr oarr].
    rewrite (part_shapes K Y B) by auto. split; auto. split; [apply part_wf; auto; lia|reflexivity]. }
  set (c' := if imaginary then None else Some t).
  destruct (eom_frozen K T sys fuel iv e r ks0 ax sh mss (time_at T zero c') (ready_time _) ND Hf (nonempty _) (part B R y) icoef e0 s1) as (s2 & E2 & C2 & R2 & Ee2 & G2); auto.
  { apply placed_time. exact P1. }
  rewrite E2. cbn [bind]. rewrite R2.
  assert (P2 : placed time0 (sheap K s2) (part B R y)) by (eapply placed_core; eauto).
  set (D := fun n => build (sh n) (frozen icoef e0 (sh n) (ar n) (mss n) (get (part B R y n)))).
  change (vectorize fuel (sheap K s2) r) with (vectorize fuel (sheap K s2) (top R)).
  rewrite (vectorize_ok K (sheap K s2) R fuel D true (pl_hangs _ _ _ _ _ _ _ _ _ _ P2) (Ax _ _ P2) Hh).
  2:{ intros n Hn. destruct (G2 n Hn) as (d & Ed & Wd & Sd & Gd). cbn [which]. rewrite Ed. f_equal. apply eq_build; auto. }
  cbn [bind].
  destruct (tensorize_tree K (sheap K s2) R fuel (part B R y) (concat (map (fun n => data (Y n)) (nids R))) (pl_hangs _ _ _ _ _ _ _ _ _ _ P2) nd_nids (Ax _ _ P2) Hh) as (h3 & E3 & L3 & G3 & O3).
  - apply P2.
  - fold (vector Y R). rewrite vector_len by auto. apply Nat.eq_le_incl. apply total_ext. intros n Hn. unfold asize, part. cbn [shape]. rewrite SY; auto.
  - cbn [top] in E3. rewrite E3. cbn [bind]. exists (with_heap K s2 h3).
    assert (F2 : frame K s1 s2) by (apply frame_core; auto; cbn [s1 with_heap sroot senv]; congruence).
    assert (F3 : frame K s2 (with_heap K s2 h3)).
    { split; auto. split; auto. split; auto. intros x. cbn [with_heap sheap]. destruct (in_dec Nat.eq_dec x (nids R)) as [Hx|Hx]; [rewrite G3 by auto; auto|rewrite O3 by auto; auto]. }
    split; [reflexivity|]. split; [eapply frame_trans; [exact F1|eapply frame_trans; eauto]|].
    apply (placed_moved K T sys r ks0 ax sh time0 s2 _ _ Y P2 F3). intros n Hn. cbn [with_heap sheap]. rewrite G3 by auto. cbn [put_arr oarr].
    rewrite (part_shapes K (part B R y) Y) by (auto; intros m Hm; cbn; rewrite SY; auto). fold (vector Y R). rewrite part_vector by auto. auto.
Qed.

Variable X : Type.
Lemma consult_run (imaginary : bool) icoef e0 zero (Q : X -> Prop) : forall (p : plan K T X) c s Y, placed time0 (sheap K s) Y -> sroot K s = r -> senv K s = e ->
  sized Q (total (asize B) (nids R)) p ->
  exists x c' s', answered (answer icoef e0) (fun t => if imaginary then None else Some t) p c = (x, c') /\ Q x /\
    consult K T X sys fuel imaginary icoef e0 zero p (c, iv, s) = Ok (x, (c', iv, s')) /\ frame K s s' /\ placed time0 (sheap K s') Y.
Proof.
  induction p as [x|t y go IH]; intros c s Y P Er Ee Sz; cbn [answered consult sized] in *.
  - exists x, c, s. split; auto. split; auto. split; auto. split; auto. apply frame_refl.
  - destruct Sz as (Ly & Sz). destruct (diff_run imaginary icoef e0 zero t y c s Y P Er Ee Ly) as (s1 & E1 & F1 & P1). rewrite E1. cbn [bind].
    pose proof F1 as (_ & Fe & Fr & _).
    destruct (IH (answer icoef e0 y) (if imaginary then None else Some t) s1 Y P1) as (x & c' & s' & E & Qx & Ec & F & P'); try congruence; [apply Sz, answer_len|].
    exists x, c', s'. split; auto. split; auto. split; auto. split; auto. eapply frame_trans; eauto.
Qed.
End Diff.
