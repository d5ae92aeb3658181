(** Property C69. *)
From Coq Require Import String List Arith ZArith Bool Lia.
From Verif Require Import Py Alg ListX NdArray_Model NdArray_Proof Contract_Model Net_Model Net_Spec Env_Spec Trav_Proof Sweep_Spec Link_Spec State_Proof TEnv_Proof EnvThm_Proof Acyc_Proof Contraction_Proof
  Cache_Model Cache_Spec Cache_Proof CacheExact_Proof Eom_Spec Eom_Proof Direct_Model Direct_Spec DirectAlg_Proof DirectSem_Proof DirectGrad_Proof DirectRun_Proof DirectThm_Proof.
Import ListNotations.
Local Open Scope nat_scope.
Local Open Scope list_scope.

(** ** C69: the derivatives of all tensors *)

Definition D_of {K : StarRing} (h : heap K) (t : id) : arr K := match oaux (hget h t) with Some d => d | None => mkArr [] [] end.
Lemma all_derived (K : StarRing) T (sys : system K T) fuel invert icoef e0 time (s : state K) ks A :
  let h := sheap K s in let r := sroot K s in let R := Nd r ks in let terms := all_terms K T sys time in
  canonical fuel h r ks A terms -> terms <> [] -> yields invert h A R ->
  exists s', derivatives K T sys fuel invert icoef e0 time s = Ok s' /\ core K h (sheap K s') /\ sroot K s' = r /\
    forall t, In t (nids R) -> oaux (hget (sheap K s') t) = Some (D_of (sheap K s') t) /\ derived K invert h r ks A terms icoef e0 t (D_of (sheap K s') t).
Proof.
  intros h r R terms Can Ne Y. destruct (can_parts K h r ks A fuel terms Can) as (H & ND & F & Hf & DO & Or & Ar & Lx & U & Su).
  destruct (derivatives_run K T sys fuel invert h r ks A H ND F Hf DO Or Ar Lx U terms Su Y icoef e0 time s eq_refl Ne eq_refl eq_refl) as (s' & E & C & Er & G).
  exists s'. split; auto. split; auto. split; auto. intros t Ht. destruct (G t Ht) as (D & ED & De). unfold D_of. rewrite ED. auto.
Qed.

(** The derivatives succeed, leave the arrays alone and are, for each tensor with an axis,
    orthogonal to its array along the axis; whatever matrices the inversion returns. *)
Theorem C69_gauge :
  forall (K : StarRing) T (sys : system K T) fuel invert icoef e0 time (s : state K) ks A,
    let h := sheap K s in let r := sroot K s in let R := Nd r ks in let terms := all_terms K T sys time in
    canonical fuel h r ks A terms -> terms <> [] -> yields invert h A R ->
    exists s' D, derivatives K T sys fuel invert icoef e0 time s = Ok s' /\
      forall t, In t (nids R) -> oarr (hget (sheap K s') t) = Some (A t) /\
        oaux (hget (sheap K s') t) = Some (D t) /\ wf (D t) /\ shape (D t) = shape (A t) /\
        forall ax p q, oaxis (hget h t) = Some ax -> p < nth ax (shape (A t)) 0 -> q < nth ax (shape (A t)) 0 ->
          crossed (arr_conj (A t)) (D t) ax p q = r0.
Proof.
  intros K T sys fuel invert icoef e0 time s ks A h r R terms Can Ne Y.
  destruct (all_derived K T sys fuel invert icoef e0 time s ks A Can Ne Y) as (s' & E & C & Er & G). fold h r R terms in C, Er, G.
  exists s', (D_of (sheap K s')). split; auto. intros t Ht. destruct (G t Ht) as (ED & De).
  destruct (can_parts K h r ks A fuel terms Can) as (H & _ & _ & _ & _ & _ & Ar & _).
  split; [|split; auto; pose proof De as (WD & SD & _); split; auto; split; auto].
  - destruct C as (_ & C). destruct (C t) as (_ & _ & _ & _ & _ & ->); auto. eapply nids_inner; eauto.
  - intros ax p q. apply (derived_gauged K h r ks A fuel invert terms Can icoef e0 t _ Ht De).
Qed.
Print Assumptions C69_gauge.

(** The derivative of the state, projected on any allowed change of one tensor whose density
    is inverted, is that of the equation of motion: [icoef] times the sum of the terms, minus the
    initial energy. *)
Theorem C69_dirac_frenkel :
  forall (K : StarRing) T (sys : system K T) fuel invert icoef e0 time (s : state K) ks A,
    let h := sheap K s in let r := sroot K s in let R := Nd r ks in let terms := all_terms K T sys time in
    canonical fuel h r ks A terms -> terms <> [] -> yields invert h A R ->
    exists s' D, derivatives K T sys fuel invert icoef e0 time s = Ok s' /\
      (forall t, In t (nids R) -> oaux (hget (sheap K s') t) = Some (D t)) /\
      forall t f, In t (nids R) -> inverts invert h A R t -> allowed h A t f ->
        rate A D (varied A t f) R =
        rsub (rmul icoef (sumL terms (element A (varied A t f) R))) (rmul (shift e0) (overlap A (varied A t f) R)).
Proof.
  intros K T sys fuel invert icoef e0 time s ks A h r R terms Can Ne Y.
  destruct (all_derived K T sys fuel invert icoef e0 time s ks A Can Ne Y) as (s' & E & C & Er & G). fold h r R terms in C, Er, G.
  exists s', (D_of (sheap K s')). split; auto. split; [intros t Ht; apply G; auto|]. intros t f Ht Iv Al.
  unfold R. rewrite (rate_alone K h r ks A fuel invert terms Can icoef e0 _ t f Ht (fun u Hu => proj2 (G u Hu)) Al).
  apply (derived_overlap K h r ks A fuel invert terms Can icoef e0 t _ f Ht (proj2 (G t Ht)) Iv Al).
Qed.
Print Assumptions C69_dirac_frenkel.

(** A step of the method 'Newton' adds [dt] times these derivatives to the arrays and keeps
    links, axes and flags. *)
Theorem C69_newton_step :
  forall (K : StarRing) T (sys : system K T) fuel invert dt icoef e0 time (s : state K) ks A,
    let h := sheap K s in let r := sroot K s in let R := Nd r ks in let terms := all_terms K T sys time in
    canonical fuel h r ks A terms -> terms <> [] -> yields invert h A R ->
    exists s1 s2 D, derivatives K T sys fuel invert icoef e0 time s = Ok s1 /\ newton_step K T sys fuel invert dt icoef e0 time s = Ok s2 /\
      hangs (sheap K s2) None R /\ oriented (sheap K s2) None R /\ sroot K s2 = r /\
      forall t, In t (nids R) -> oaux (hget (sheap K s1) t) = Some (D t) /\ oaux (hget (sheap K s2) t) = None /\ onorm (hget (sheap K s2) t) = onorm (hget h t) /\
        exists y, oarr (hget (sheap K s2) t) = Some y /\ wf y /\ shape y = shape (A t) /\
          forall idx, in_range idx (shape (A t)) -> get y idx = radd (get (A t) idx) (rmul dt (get (D t) idx)).
Proof.
  intros K T sys fuel invert dt icoef e0 time s ks A h r R terms Can Ne Y.
  destruct (all_derived K T sys fuel invert icoef e0 time s ks A Can Ne Y) as (s' & E & C & Er & G). fold h r R terms in C, Er, G.
  destruct (can_parts K h r ks A fuel terms Can) as (H & ND & F & Hf & DO & Or & Ar & Lx & U & Su).
  pose proof C as (Ln & Ck). assert (Hs : hangs (sheap K s') None R) by (eapply core_hangs; eauto).
  destruct (advance_run K r ks A F dt (nids R) s' (nids_nodup r ks ND) (incl_refl _)) as (s2 & E2 & Er2 & Ln2 & At & _ & In_).
  { intros t Ht. eapply hangs_lt; [exact Hs|]. apply nids_ids. auto. }
  { intros t Ht. destruct (Ck t) as (_ & _ & _ & _ & _ & ->); [|eapply nids_inner; eauto]. split; [apply Ar; auto|].
    destruct (G t Ht) as (ED & WD & SD & _). eauto. }
  exists s', s2, (D_of (sheap K s')). split; auto. split.
  { unfold newton_step. rewrite E. cbn [bind]. rewrite (tensors_run K fuel h r ks H Hf Or false s' C Er). exact E2. }
  split; [apply (TEnv_Proof.hangs_same K (sheap K s')); auto; intros n; destruct (At n) as (P1 & _ & _ & P2); auto|]. split.
  { assert (O' : forall up t, oriented h up t -> oriented (sheap K s2) up t); [|auto].
    intros up t. revert up. induction t as [n|n kk IH] using tree_ind'; intros up Ot; [constructor|]. inversion Ot as [|? ? ? Ea Fo]; subst. constructor.
    - destruct (At n) as (_ & -> & _). apply Ck.
    - rewrite Forall_forall in IH, Fo |- *. auto. }
  split; [congruence|]. intros t Ht. destruct (G t Ht) as (ED & _). split; auto. destruct (In_ t _ Ht ED) as (N2 & y & Ey). split; auto. split; [|eauto].
  destruct (At t) as (_ & _ & -> & _). apply Ck.
Qed.
Print Assumptions C69_newton_step.

Local Definition g (a b : Z) : G_star := (a, b).
(** A root 0 of shape (2, 2) with array diag(1, i), its axis 0 linked to axis 0 of a tensor 1
    of shape (2, 3) that is orthonormal along this axis; leaves 2 and 3. *)
Definition dr_a (n : nat) : arr G_star :=
  match n with
  | 0 => mkArr [2; 2] ([g 1 0; g 0 0; g 0 0; g 0 1] : list G_star)
  | _ => mkArr [2; 3] ([g 1 0; g 0 0; g 0 0; g 0 0; g 0 1; g 0 0] : list G_star)
  end.
Definition dr_h : heap G_star :=
  [mkObj (Some "0"%string) false (Some (dr_a 0)) None None true [(0, (1, 0)); (1, (2, 0))] [];
   mkObj (Some "1"%string) false (Some (dr_a 1)) None (Some 0) true [(0, (0, 0)); (1, (3, 0))] [];
   mkObj (Some "2"%string) true None None None false [(0, (0, 1))] [];
   mkObj (Some "3"%string) true None None None false [(0, (1, 1))] []].
Definition dr_ks : list (nat * tree * nat) := [(0, Nd 1 [(1, Lf 3, 0)], 0); (1, Lf 2, 0)].
Definition dr_m3 : arr G_star := mkArr [3; 3] ([g 1 0; g 2 0; g 0 3; g 2 0; g 0 0; g 1 1; g 0 (-3); g 1 (-1); g 4 0] : list G_star).
Definition dr_m2 : arr G_star := mkArr [2; 2] ([g 0 0; g 0 (-1); g 0 1; g 5 0] : list G_star).
Definition dr_sys : system G_star nat := mkSystem G_star nat [[(3, dr_m3)]; [(2, dr_m2); (3, dr_m3)]] None.
Definition dr_s : state G_star := mkState G_star dr_h 0 (no_env G_star).
Definition dr_inv (rho : option (arr G_star)) (_ : nat) : res (arr G_star) := match rho with Some m => Ok m | None => Raise TypeError end.
Definition dr_f : arr G_star := mkArr [2; 3] ([g 0 0; g 0 0; g 2 1; g 0 0; g 0 0; g 0 7] : list G_star).

Lemma dr_canonical : canonical 6 dr_h 0 dr_ks dr_a (all_terms _ _ dr_sys 0).
Proof.
  assert (H : hangs dr_h None (Nd 0 dr_ks)).
  { apply hangs_root; [reflexivity|reflexivity|cbn; repeat constructor; cbn; intuition discriminate|].
    repeat constructor. apply (hangs_node _ _ 1 0 (0, 0) [] [(1, Lf 3, 0)]); [reflexivity|reflexivity| |repeat constructor].
    cbn. repeat constructor; cbn; intuition discriminate. }
  assert (F : fits dr_a None 0 (Nd 0 dr_ks)).
  { constructor; [reflexivity|repeat constructor|exact I|reflexivity|]. constructor; [|repeat constructor].
    constructor; [reflexivity|repeat constructor|cbn; lia|reflexivity|repeat constructor]. }
  assert (U : unit_along (dr_a 1) (Some 0)).
  { intros a b Ha Hb. cbn in Ha, Hb. destruct a as [|[|a]]; destruct b as [|[|b]]; try lia; reflexivity. }
  split; [split; [exact H|split; [|split; [exact F|split; [cbn; lia|split; [|split]]]]]|split; [|split; [|split]]].
  - repeat constructor; cbn; intuition discriminate.
  - intros n Hn. cbn in Hn. destruct Hn as [<-|[<-|[]]]; reflexivity.
  - intros n Hn E _. cbn in Hn. destruct Hn as [<-|[<-|[]]]; [congruence|exact U].
  - repeat constructor; cbn; try (intros l m Hl; repeat (destruct Hl as [Hl|Hl]; [injection Hl as <- <-; reflexivity|]); destruct Hl).
  - intros n. destruct n as [|[|[|[|n]]]]; [cbn; repeat constructor..|]. unfold dr_h, hget. destruct n; cbn; constructor.
  - repeat constructor.
  - intros l Hl. cbn in Hl. destruct Hl as [<-|[<-|[]]]; reflexivity.
  - intros n Hn E. cbn in Hn. destruct Hn as [<-|[<-|[]]]; [congruence|exact U].
Qed.
Lemma dr_yields : yields dr_inv dr_h dr_a (Nd 0 dr_ks).
Proof. intros t ax rho _ _ (M & _). exists rho. split; auto. Qed.
Lemma dr_inverts : inverts dr_inv dr_h dr_a (Nd 0 dr_ks) 1.
Proof.
  intros ax rho m Ea (M & De) E. injection E as <-. cbn in Ea. injection Ea as <-. cbn [dr_a shape nth] in *.
  assert (G : forall p q, p < 2 -> q < 2 -> get rho [p; q] = delta p q).
  { intros p q Hp Hq. set (e := fun i : nat => build [2; 3] (fun idx => rmul (delta (nth 0 idx 0) i) (delta (nth 1 idx 0) 0)) : arr G_star).
    pose proof (De (e p) (e q) (wf_build _ _ _) (wf_build _ _ _) eq_refl eq_refl) as X.
    rewrite (sumn_ext G_star 2 _ (fun p' => rmul (delta p' p) (get rho [p'; q]))) in X.
    - rewrite sumn_delta in X by auto. rewrite <- X. destruct p as [|[|p]]; destruct q as [|[|q]]; try lia; vm_compute; reflexivity.
    - intros p' Hp'. rewrite (sumn_ext G_star 2 _ (fun q' => rmul (delta q' q) (rmul (delta p' p) (get rho [p'; q'])))).
      + rewrite sumn_delta by auto. reflexivity.
      + intros q' Hq'. replace (crossed (e q) (e p) 0 q' p') with (rmul (delta q' q) (delta p' p) : G_star).
        * rewrite (Rmul_comm (r_theory G_star) (get rho [p'; q'])). symmetry. apply (Rmul_assoc (r_theory G_star)).
        * destruct p as [|[|p]]; destruct q as [|[|q]]; destruct p' as [|[|p']]; destruct q' as [|[|q']]; try lia; vm_compute; reflexivity. }
  split; auto. intros p q Hp Hq. rewrite (sumn_ext G_star 2 _ (fun c => rmul (delta c p) (delta c q))).
  - rewrite sumn_delta by auto. reflexivity.
  - intros c Hc. rewrite !G by auto. f_equal. unfold delta. rewrite Nat.eqb_sym. reflexivity.
Qed.
Lemma dr_allowed : allowed dr_h dr_a 1 dr_f.
Proof.
  split; [reflexivity|]. split; [reflexivity|]. intros ax p q E Hp Hq. cbn in E. injection E as <-. cbn in Hp, Hq.
  destruct p as [|[|p]]; destruct q as [|[|q]]; try lia; vm_compute; reflexivity.
Qed.
(** The derivative of tensor 1 with coefficient [-i], and both sides of the equation. *)
Example C69_example :
  let R := Nd 0 dr_ks in let terms := all_terms _ _ dr_sys 0 in
  canonical 6 (sheap _ dr_s) 0 dr_ks dr_a terms /\ terms <> [] /\ yields dr_inv dr_h dr_a R /\ inverts dr_inv dr_h dr_a R 1 /\ allowed dr_h dr_a 1 dr_f /\
  match derivatives G_star nat dr_sys 6 dr_inv (g 0 (-1)) (Some (g 2 0)) 0 dr_s with
  | Ok s' => option_map data (oaux (hget (sheap _ s') 1)) = Some ([g 0 0; g 0 0; g 2 (-1); g 0 0; g 0 0; g 3 6] : list G_star) /\
      rate dr_a (D_of (sheap _ s')) (varied dr_a 1 dr_f) R = g (-37) 21
  | _ => False
  end /\
  rsub (rmul (g 0 (-1)) (sumL terms (element dr_a (varied dr_a 1 dr_f) R))) (rmul (g 2 0) (overlap dr_a (varied dr_a 1 dr_f) R)) = g (-37) 21.
Proof.
  split; [exact dr_canonical|]. split; [discriminate|]. split; [exact dr_yields|]. split; [exact dr_inverts|]. split; [exact dr_allowed|].
  split; vm_compute; auto.
Qed.
