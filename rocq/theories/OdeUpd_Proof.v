(** The arrays after the solver's vector has been stored. *)
From Coq Require Import String List Arith Bool Lia Reals.
From Verif Require Import Py Alg ListX NdArray_Model NdArray_Proof Contract_Model Contract_Spec Net_Model Net_Spec Sweep_Spec Trav_Proof Acyc_Proof Contraction_Proof
  Link_Spec Link_Proof Env_Spec TEnv_Proof EnvThm_Proof State_Spec State_Proof Cache_Model Cache_Spec Cache_Proof CacheExact_Proof Eom_Spec Eom_Proof Direct_Model Direct_Spec
  DirectAlg_Proof DirectSem_Proof DirectGrad_Proof DirectRun_Proof DirectThm_Proof Rk4_Spec Rk4_Model Rk4_Proof Rk4Thm_Proof Cplx Normalize_Model Normalize_Spec Normalize_Prop
  Propagate_Model Ode_Spec Ode_Model Vec_Spec Vec_Proof Ode_Proof OdeThm_Proof.
Import ListNotations.
Local Open Scope nat_scope.
Local Open Scope list_scope.

Lemma fits_positive {K : StarRing} (A : id -> arr K) : forall t ax d, fits A ax d t -> forall n, In n (nids t) -> Forall (fun m => 0 < m) (shape (A n)).
Proof.
  induction t as [n|n ks IH] using tree_ind'; intros ax d F m Hm; [destruct Hm|]. inversion F as [|? ? ? ? W P X I G]; subst.
  destruct Hm as [<-|Hm]; auto. apply in_flat_map in Hm. destruct Hm as (k & Hk & Hm). rewrite Forall_forall in IH.
  clear I F P. induction G as [|k' d' kk dd Fk G IG]; [destruct Hk|]. destruct Hk as [->|Hk]; [eapply IH; eauto; left; auto|]. apply IG; auto. intros k1 Hk1. apply IH. right. auto.
Qed.

Section Update.
Variable K : StarRing.
Variable T : Type.
Variable sys : system K T.
Variable fuel : nat.
Variables (nrm : list K -> K) (sqrtf inv : K -> K).
Variable r : id.
Variable ks0 : list (nat * tree * nat).
Notation R := (Nd r ks0).
Variable ax : id -> option nat.
Variable sh : id -> list nat.
Variable time : T.
Notation placed := (placed K T sys r ks0 ax sh time).
Hypothesis ND : NoDup (ids R).
Hypothesis Hf : length (ids R) <= fuel.
Variable flag : id -> bool.
Variable Pre : id -> arr K -> Prop.
Variable Post : id -> arr K -> arr K -> Prop.
(** What [normalize] makes of one tensor. *)
Hypothesis one : forall t h a, In t (nids R) -> t < length h -> oarr (hget h t) = Some a -> oaxis (hget h t) = ax t -> onorm (hget h t) = flag t ->
  wf a -> shape a = sh t -> Pre t a ->
  exists v up b, normalize nrm sqrtf inv h t false = Ok (v, modify h t up) /\ harmless K up /\ oarr (up (hget h t)) = Some b /\ wf b /\ shape b = sh t /\ Post t a b.

Lemma update_run c iv s Y y : placed (sheap K s) Y -> sroot K s = r -> (forall t, In t (nids R) -> onorm (hget (sheap K s) t) = flag t) ->
  length y = total (asize Y) (nids R) -> (forall t, In t (nids R) -> Pre t (part Y R y t)) ->
  exists s' Y', updater K T fuel nrm sqrtf inv y (c, iv, s) = Ok (c, iv, s') /\ frame K s s' /\ placed (sheap K s') Y' /\
    forall t, In t (nids R) -> Post t (part Y R y t) (Y' t).
Proof.
  intros P Er Fl Ly Pr. unfold updater. rewrite Er.
  pose proof (r_axis K (sheap K s) r ks0 (pl_or _ _ _ _ _ _ _ _ _ _ P)) as Ax. pose proof (heights r ks0 fuel Hf) as Hh.
  pose proof (DirectRun_Proof.nids_nodup r ks0 ND) as NN.
  destruct (tensorize_tree K (sheap K s) R fuel Y y (pl_hangs _ _ _ _ _ _ _ _ _ _ P) NN Ax Hh) as (h1 & E1 & L1 & G1 & O1); [apply P|lia|].
  cbn [top] in E1. rewrite E1. cbn [bind]. set (s1 := with_heap K s h1).
  assert (F1 : frame K s s1).
  { split; auto. split; auto. split; auto. intros x. cbn [s1 with_heap sheap]. destruct (in_dec Nat.eq_dec x (nids R)) as [Hx|Hx]; [rewrite G1 by auto; auto|rewrite O1 by auto; auto]. }
  assert (P1 : placed h1 (part Y R y)).
  { apply (placed_moved K T sys r ks0 ax sh time s s1 Y _ P F1). intros n Hn. cbn [s1 with_heap sheap]. rewrite G1 by auto. cbn [put_arr oarr].
    split; auto. split; [apply part_wf; auto; lia|]. apply (pl_sh _ _ _ _ _ _ _ _ _ _ P n Hn). }
  rewrite (tensors_run K fuel h1 r ks0 (pl_hangs _ _ _ _ _ _ _ _ _ _ P1) Hf (pl_or _ _ _ _ _ _ _ _ _ _ P1) false s1 (core_refl K h1) Er). cbn [bind].
  destruct (over_local (normalize_one K nrm sqrtf inv) (fun t s => hget (sheap K s) t)
    (fun s => forall t, In t (nids R) -> t < length (sheap K s))
    (fun t o => exists a, oarr o = Some a /\ oaxis o = ax t /\ onorm o = flag t /\ wf a /\ shape a = sh t /\ Pre t a)
    (fun t o o' => forall a, oarr o = Some a -> exists b, oarr o' = Some b /\ wf b /\ shape b = sh t /\ Post t a b) (frame K) (nids R))
    with (l := nids R) (a := s1) as (s2 & E2 & _ & F2 & Q2 & _); auto using frame_refl, incl_refl.
  - intros a b d. apply frame_trans.
  - intros t s2 Ht J (a & Ea & Ex & En & W & Sa & Pa). destruct (one t (sheap K s2) a Ht (J t Ht) Ea Ex En W Sa Pa) as (v & up & b & E & Hu & Eb & Wb & Sb & Pb).
    unfold normalize_one. rewrite E. cbn [bind snd]. eexists. split; [reflexivity|]. cbn [with_heap sheap]. split; [intros x Hx; rewrite length_modify; auto|]. split.
    { split; [cbn [with_heap sheap]; apply length_modify|]. split; auto. split; auto. intros x. cbn [with_heap sheap].
      destruct (Nat.eq_dec x t) as [->|Nx]; [rewrite hget_modify_eq by auto; destruct (Hu (hget (sheap K s2) t)) as (Q1 & Q2 & Q3 & Q4); auto|rewrite hget_modify_neq by auto; auto]. }
    split; [|intros x Hx; apply hget_modify_neq; auto]. intros a' Ea'. assert (a' = a) by congruence. subst a'. rewrite hget_modify_eq by auto. eauto.
  - intros t Ht. cbn [s1 with_heap sheap]. rewrite L1. eapply hangs_lt; [apply P|]. now apply nids_ids.
  - intros t Ht. exists (part Y R y t). cbn [s1 with_heap sheap]. destruct F1 as (_ & _ & _ & Fx). destruct (Fx t) as (_ & Q1 & Q2 & _). cbn [s1 with_heap sheap] in Q1, Q2.
    rewrite Q1, Q2. split; [rewrite G1 by auto; reflexivity|]. split; [apply P; auto|]. split; auto. split; [apply part_wf; auto; lia|]. split; auto. apply (pl_sh _ _ _ _ _ _ _ _ _ _ P t Ht).
  - rewrite E2. cbn [bind]. set (Y' := fun t => match oarr (hget (sheap K s2) t) with Some b => b | None => Y t end).
    assert (Q : forall t, In t (nids R) -> oarr (hget (sheap K s2) t) = Some (Y' t) /\ wf (Y' t) /\ shape (Y' t) = sh t /\ Post t (part Y R y t) (Y' t)).
    { intros t Ht. destruct (Q2 t Ht (part Y R y t)) as (b & Eb & Wb & Sb & Pb); [cbn [s1 with_heap sheap]; rewrite G1 by auto; reflexivity|]. unfold Y'. rewrite Eb. auto. }
    exists s2, Y'. split; auto. split; [eapply frame_trans; eauto|]. split; [|intros t Ht; apply Q; auto].
    apply (placed_moved K T sys r ks0 ax sh time s1 s2 _ Y' P1 F2). intros t Ht. destruct (Q t Ht) as (Q1' & Q2' & Q3' & _). auto.
Qed.
End Update.

Lemma modify_twice {K : StarRing} (h : heap K) n f g : modify (modify h n f) n g = modify h n (fun o => g (f o)).
Proof.
  apply (nth_ext _ _ no_obj no_obj); [rewrite !length_modify; auto|]. intros m Hm. rewrite !length_modify in Hm. change (hget (modify (modify h n f) n g) m = hget (modify h n (fun o => g (f o))) m).
  destruct (Nat.eq_dec m n) as [->|Nm]; [rewrite !hget_modify_eq by (rewrite ?length_modify; auto); auto|rewrite !hget_modify_neq by auto; auto].
Qed.
(** With the flag, the tensors are orthonormalised. *)
Lemma flagged_one (h : heap C_star) t a ax : t < length h -> oarr (hget h t) = Some a -> oaxis (hget h t) = ax -> onorm (hget h t) = true ->
  wf a -> Forall (fun m => 0 < m) (shape a) -> match ax with Some i => i < ndim a | None => True end -> regular ax a ->
  exists v up b, normalize vnorm Csqrt Cinv h t false = Ok (v, modify h t up) /\ harmless C_star up /\ oarr (up (hget h t)) = Some b /\ wf b /\ shape b = shape a /\ made_unit ax a b.
Proof.
  intros Lt Ea Ex En W Pa Hx Rg. destruct ax as [i|]; cbn [regular] in Rg.
  - destruct (C51_rows h t false a i Ea Ex (or_introl En) W Hx Pa Rg) as (b & norms & E & Wb & Sb & _ & O & Lo & Lw).
    exists (Some norms), (put_arr (Some b)), b. split; auto. split; [intros o; repeat split|]. split; [reflexivity|]. split; auto. split; auto.
    split; auto. split; auto. split; auto. split; auto. destruct Lw as (c & _ & Lw). exists c. auto.
  - destruct (C51_root h t false a Ea Ex (or_introl En) W Rg) as (n & Pn & En2 & E & _).
    exists (Some [RtoC n]), (fun o => put_arr (Some (arr_scale (RtoC (/ n)) a)) (put_aux (Some (arr_conj a)) o)), (arr_scale (RtoC (/ n)) a).
    split; [rewrite E; f_equal; f_equal; apply modify_twice|]. split; [intros o; repeat split|]. split; [reflexivity|].
    assert (Wb : wf (arr_scale (RtoC (/ n)) a)) by (apply wf_scale; auto). split; auto. split; [reflexivity|].
    split; auto. split; [reflexivity|]. exists n. split; auto. split; auto. intros x Hx'. apply get_scale; auto.
Qed.
Lemma unit_isometric i (a b : arr C_star) : made_unit (Some i) a b -> unit_along b (Some i).
Proof. intros (_ & Sb & O & _) p q Hp Hq. rewrite Sb in *. apply (O p q); auto. Qed.
