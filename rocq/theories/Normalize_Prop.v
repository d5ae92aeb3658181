(** Property C51: [normalize]. *)
From Coq Require Import List Arith Bool Lia Ring Reals Lra.
From Verif Require Import Py Alg ListX NdArray_Model NdArray_Proof Contract_Model Contract_Spec Contract_Proof Net_Model Cplx Trav_Proof
  Normalize_Model Normalize_Spec Normalize_Proof.
Import ListNotations.
Local Open Scope nat_scope.

(** Over any ring with involution, for norms that can normalise every row that is not zero. *)
Theorem C51_rows_any_scalars :
  forall (K : StarRing) (nrm : list K -> K) (inv : K -> K) (a : arr K) ax,
    wf a -> ax < ndim a -> Forall (fun x => 0 < x) (shape a) -> (r1 : K) <> r0 ->
    (forall v, ~ (forall x, x < length v -> nth x v r0 = r0) ->
       rmul (nrm v) (inv (nrm v)) = r1 /\
       rmul (rmul (rconj (inv (nrm v))) (inv (nrm v))) (sumn (length v) (fun x => rmul (rconj (nth x v r0)) (nth x v r0))) = r1) ->
    let dim := nth ax (shape a) 0 in let xs := indices (del ax (shape a)) in
    independent xs dim (along a ax) ->
    exists b norms, normalize_along nrm inv a ax = Ok (b, norms) /\ wf b /\ shape b = shape a /\ length norms = dim /\
      orthonormal xs dim (along b ax) /\ lower xs dim (along b ax) (along a ax) /\
      lower_with xs dim (fun i => nth i norms r0) (along a ax) (along b ax).
Proof.
  intros K nrm inv a ax W Hax Hp Nt Hn dim xs Hi. apply along_ok; auto.
  intros v Lv Nz. rewrite (cdot_sum K (length v)) by auto. apply Hn. rewrite Lv. exact Nz.
Qed.
Print Assumptions C51_rows_any_scalars.

(** The norms of numpy for complex numbers. *)
Definition vnorm (v : list C_star) : C_star := RtoC (sqrt (fst (sumn (length v) (fun x => rmul (rconj (nth x v r0)) (nth x v r0))))).

Lemma vnorm_ok (v : list C_star) : ~ (forall x, x < length v -> nth x v r0 = r0) ->
  rmul (vnorm v) (Cinv (vnorm v)) = r1 /\
  rmul (rmul (rconj (Cinv (vnorm v))) (Cinv (vnorm v))) (sumn (length v) (fun x => rmul (rconj (nth x v r0)) (nth x v r0))) = r1.
Proof.
  intros N. unfold vnorm, sumn. destruct (sum_norm2 (seq 0 (length v)) (fun x => nth x v r0)) as (r & E & P & Q). rewrite E. cbn [RtoC fst].
  assert (R0 : (0 < r)%R).
  { destruct (Rle_lt_or_eq_dec _ _ P) as [H|H]; auto. exfalso. apply N. intros x Hx.
    destruct (Req_dec (fst (nth x v r0 : C_star)) 0) as [E1|E1]; [destruct (Req_dec (snd (nth x v r0 : C_star)) 0) as [E2|E2]|].
    - apply Ceq; auto.
    - exfalso. assert (0 < r)%R; [|lra]. apply Q. exists x. split; [apply in_seq; lia|]. intros Z. rewrite Z in E2. apply E2. reflexivity.
    - exfalso. assert (0 < r)%R; [|lra]. apply Q. exists x. split; [apply in_seq; lia|]. intros Z. rewrite Z in E1. apply E1. reflexivity. }
  pose proof (sqrt_lt_R0 r R0) as S0. rewrite Cinv_R by lra. rewrite RtoC_conj, <- !RtoC_mul. split.
  - rewrite Rinv_r by lra. reflexivity.
  - replace (/ sqrt r * / sqrt r * r)%R with 1%R; [reflexivity|]. rewrite <- (sqrt_sqrt r) at 3 by lra. field. lra.
Qed.

(** A tensor with a parent, over the complex numbers: independent rows become orthonormal and keep
    their nested spans; nothing but the array changes. *)
Theorem C51_rows :
  forall (h : heap C_star) n forced a ax,
    oarr (hget h n) = Some a -> oaxis (hget h n) = Some ax -> (onorm (hget h n) = true \/ forced = true) ->
    wf a -> ax < ndim a -> Forall (fun x => 0 < x) (shape a) ->
    let dim := nth ax (shape a) 0 in let xs := indices (del ax (shape a)) in
    independent xs dim (along a ax) ->
    exists b norms, normalize vnorm Csqrt Cinv h n forced = Ok (Some norms, modify h n (put_arr (Some b))) /\
      wf b /\ shape b = shape a /\ length norms = dim /\
      orthonormal xs dim (along b ax) /\ lower xs dim (along b ax) (along a ax) /\
      lower_with xs dim (fun i => nth i norms r0) (along a ax) (along b ax).
Proof.
  intros h n forced a ax Ea Ex Hf W Hax Hp dim xs Hi.
  destruct (C51_rows_any_scalars C_star vnorm Cinv a ax W Hax Hp C_nontrivial vnorm_ok Hi) as (b & norms & E & Wb & Sb & Ln & R).
  exists b, norms. split; [|auto]. unfold normalize. rewrite Ea, Ex.
  replace (negb (onorm (hget h n)) && negb forced) with false by (destruct Hf as [->| ->]; [|rewrite andb_comm]; reflexivity).
  rewrite E. reflexivity.
Qed.
Print Assumptions C51_rows.

(** The root gets unit norm (its [aux] is overwritten by the conjugate of the old array). *)
Theorem C51_root :
  forall (h : heap C_star) n forced a,
    oarr (hget h n) = Some a -> oaxis (hget h n) = None -> (onorm (hget h n) = true \/ forced = true) ->
    wf a -> (exists x, in_range x (shape a) /\ get a x <> r0) ->
    exists r, (0 < r)%R /\ RtoC (r * r) = sumL (indices (shape a)) (fun x => rmul (rconj (get a x)) (get a x)) /\
    let b := arr_scale (RtoC (/ r)) a in
    normalize vnorm Csqrt Cinv h n forced = Ok (Some [RtoC r], modify (modify h n (put_aux (Some (arr_conj a)))) n (put_arr (Some b))) /\
    sumL (indices (shape a)) (fun x => rmul (rconj (get b x)) (get b x)) = r1.
Proof.
  intros h n forced a Ea Ex Hf W (x & Hx & Nx).
  destruct (sum_norm2 (indices (shape a)) (get a)) as (s & E & P & Q).
  assert (S0 : (0 < s)%R) by (apply Q; exists x; split; auto; apply in_indices; auto).
  pose proof (sqrt_lt_R0 s S0) as R0. exists (sqrt s). split; auto. rewrite sqrt_sqrt by lra. split; [auto|].
  cbv zeta. split.
  - unfold normalize. rewrite Ea, Ex.
    replace (negb (onorm (hget h n)) && negb forced) with false by (destruct Hf as [->| ->]; [|rewrite andb_comm]; reflexivity).
    destruct (partial_trace_all_ok C_star a (arr_conj a)) as (c & Ec & _ & _ & Gc); auto; [apply wf_conj; auto|].
    rewrite Ec. cbn [bind]. rewrite Gc.
    replace (sumL (indices (shape a)) (fun r => rmul (get a r) (get (arr_conj a) r))) with (RtoC s).
    + rewrite Csqrt_pos by lra. rewrite Cinv_R by lra. reflexivity.
    + rewrite <- E. apply sumL_ext. intros r. rewrite get_conj. apply (Rmul_comm (r_theory C_star)).
  - transitivity (rmul (rmul (RtoC (/ sqrt s)) (RtoC (/ sqrt s))) (RtoC s)).
    + rewrite <- E, <- sumL_scal_l. apply sumL_ext. intros r. rewrite get_scale, rconj_mul, RtoC_conj. set (u := RtoC (/ sqrt s)).
      set (g := get a r). clearbody u g. ring.
    + rewrite <- !RtoC_mul. replace (/ sqrt s * / sqrt s * s)%R with 1%R; [reflexivity|]. rewrite <- (sqrt_sqrt s) at 3 by lra. field. lra.
Qed.
Print Assumptions C51_root.

(** Orthonormal rows stay as they are. *)
Theorem C51_orthonormal_unchanged :
  forall (h : heap C_star) n forced a ax,
    oarr (hget h n) = Some a -> oaxis (hget h n) = Some ax -> (onorm (hget h n) = true \/ forced = true) ->
    wf a -> ax < ndim a -> Forall (fun x => 0 < x) (shape a) ->
    orthonormal (indices (del ax (shape a))) (nth ax (shape a) 0) (along a ax) ->
    exists norms, normalize vnorm Csqrt Cinv h n forced = Ok (Some norms, modify h n (put_arr (Some a))).
Proof.
  intros h n forced a ax Ea Ex Hf W Hax Hp Ho.
  destruct (along_same C_star vnorm Cinv a ax W Hax Hp) as (norms & E); auto.
  - intros v Lv U. rewrite (cdot_sum C_star (length v)) in U by auto. unfold vnorm. rewrite U. cbn [fst r1 C_star]. rewrite sqrt_1. apply Cinv_1.
  - exists norms. unfold normalize. rewrite Ea, Ex.
    replace (negb (onorm (hget h n)) && negb forced) with false by (destruct Hf as [->| ->]; [|rewrite andb_comm]; reflexivity).
    rewrite E. reflexivity.
Qed.
Print Assumptions C51_orthonormal_unchanged.

(** Neither flagged nor forced, or no array: nothing happens. *)
Theorem C51_skipped :
  forall (K : StarRing) nrm sqrtf inv (h : heap K) n forced,
    oarr (hget h n) = None \/ (onorm (hget h n) = false /\ forced = false) ->
    normalize nrm sqrtf inv h n forced = Ok (None, h).
Proof.
  intros K nrm sqrtf inv h n forced [E|(E & ->)]; unfold normalize; rewrite E; auto. destruct (oarr (hget h n)); reflexivity.
Qed.
Print Assumptions C51_skipped.

(** Rows (1, i) and (1, 1). *)
Local Open Scope R_scope.
Definition gs_ex : arr C_star := @mkArr C_star [2; 2]%nat [(1, 0); (0, 1); (1, 0); (1, 0)].
Example C51_example :
  wf gs_ex /\ (0 < ndim gs_ex)%nat /\ Forall (fun x => (0 < x)%nat) (shape gs_ex) /\
  independent (indices (del 0 (shape gs_ex))) (nth 0 (shape gs_ex) 0%nat) (along gs_ex 0).
Proof.
  split; [reflexivity|]. split; [cbn; lia|]. split; [repeat constructor|].
  intros c Hc. pose proof (Hc [0%nat] (or_introl eq_refl)) as H0. pose proof (Hc [1%nat] (or_intror (or_introl eq_refl))) as H1.
  cbn in H0, H1. unfold sumn, sumL in H0, H1. cbn in H0, H1. unfold Cadd, Cmul in H0, H1. cbn in H0, H1.
  assert (A0 := f_equal fst H0). assert (B0 := f_equal snd H0). assert (A1 := f_equal fst H1). assert (B1 := f_equal snd H1). cbn in A0, B0, A1, B1.
  intros [|[|i]] Hi; [| |cbn in Hi; lia]; apply Ceq; cbn; lra.
Qed.
