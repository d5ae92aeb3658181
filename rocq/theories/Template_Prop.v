(** Property C41: the tensor networks of the initial states of the hierarchy. *)
From Coq Require Import String List Arith Bool Lia Ring ZArith Reals Lra Permutation.
From Verif Require Import Py Alg ListX NdArray_Model NdArray_Proof Contract_Model Contract_Spec Contract_Proof Net_Model Net_Spec Link_Proof Trav_Proof Cplx
  Tri_Model Heom_Model Normalize_Model Normalize_Spec Normalize_Proof Normalize_Prop Template_Model Template_Spec Template_Proof TplChain_Proof TplTree_Proof.
Import ListNotations.
Local Open Scope nat_scope.
Local Open Scope list_scope.

(** One tensor for all modes. *)
Theorem C41_simple_heom :
  forall (K : StarRing) (h : heap K) rho d dims,
    wf rho -> shape rho = [d; d] -> 0 < d -> dims <> [] -> Forall (fun x => 0 < x) dims ->
    exists h', simple_heom h rho dims = Ok (h', length h) /\ (forall n, n < length h -> hget h' n = hget h n) /\
      stands_for h' (length h) rho d (length dims) (seq 0 (length dims)) (fun k => nth k dims 0).
Proof. exact simple_ok. Qed.
Print Assumptions C41_simple_heom.

(** The tensor train, for two states and at least two modes. *)
Theorem C41_tensor_train :
  forall (K : StarRing) (h : heap K) rho dims rank,
    wf rho -> shape rho = [2; 2] -> 2 <= length dims -> Forall (fun x => 0 < x) dims -> 0 < rank ->
    exists h', tensor_train_template h rho dims rank = Ok (h', length h) /\ (forall n, n < length h -> hget h' n = hget h n) /\
      stands_for h' (length h) rho 2 (length dims) (seq 0 (length dims)) (fun k => nth k dims 0).
Proof. exact train_template_ok. Qed.
Print Assumptions C41_tensor_train.

(** Other numbers of states: three states, modes of 4 and 2 tiers.  The template returns a
    network in which the link between the root and the first tensor has length 9 on one side
    and 4 on the other; with other tiers it raises. *)
Definition rho3 : arr Z_star := @mkArr Z_star [3; 3] [1; 0; 0; 0; 0; 0; 0; 0; 0]%Z.
Theorem C41_train_three_states_refuted :
  wf rho3 /\
  (match tensor_train_template (K := Z_star) [] rho3 [4; 2] 2 with
   | Ok (h', r) => dget (oacc (hget h' r)) 2 = Some (3, 0) /\ nth 2 (shape (array_at h' r)) 0 = 9 /\
                   nth 0 (shape (array_at h' 3)) 0 = 4 /\ check_linkage h' r 2 true = Raise RuntimeError
   | Raise _ => False
   end) /\
  tensor_train_template (K := Z_star) [] rho3 [3; 2] 2 = Raise ValueError.
Proof. vm_compute. repeat split. Qed.
Print Assumptions C41_train_three_states_refuted.

(** A single mode: the array of the only tensor has three axes, two of them linked. *)
Definition rho2 : arr Z_star := @mkArr Z_star [2; 2] [1; 2; 3; 4]%Z.
Theorem C41_train_one_mode_refuted :
  wf rho2 /\
  match tensor_train_template (K := Z_star) [] rho2 [3] 2 with
  | Ok (h', r) => ndim (array_at h' 3) = 3 /\ map fst (oacc (hget h' 3)) = [0; 1]
  | Raise _ => False
  end.
Proof. vm_compute. repeat split. Qed.
Print Assumptions C41_train_one_mode_refuted.

(** The tree, over any ring with involution; [nrm], [sqrtf], [inv] and [rank_of] stand for
    linalg.norm, np.sqrt, the reciprocal and matrix_rank.  With a single mode its leaf hangs on
    the root and has [rank] tiers. *)
Theorem C41_tensor_tree_any_scalars :
  forall (K : StarRing) (nrm : list K -> K) (sqrtf inv : K -> K) (rank_of : arr K -> nat),
    (forall v, sumn (length v) (fun x => rmul (rconj (nth x v r0)) (nth x v r0)) = r1 -> inv (nrm v) = r1) ->
    sqrtf r0 = r0 -> sqrtf r1 = r1 -> (forall n, rank_of (eye n n) = n) ->
  forall (h : heap K) rho dims rank n_branch d fuel,
    wf rho -> shape rho = [d; d] -> 0 < d -> 0 < length dims -> 2 <= n_branch -> 0 < rank -> Forall (fun n => rank <= n) dims ->
    2 * length dims + 2 <= fuel ->
    exists h' ks, tensor_tree_template nrm sqrtf inv rank_of fuel h rho dims rank n_branch = Ok (h', length h) /\
      (forall n, n < length h -> hget h' n = hget h n) /\
      stands_for h' (length h) rho d (length dims) ks (fun k => if length dims =? 1 then rank else nth k dims 0).
Proof.
  intros K nrm sqrtf inv rank_of U S0 S1 Re h rho dims rank nb d fuel. apply tree_template_ok; auto.
  intros v Uv. apply U. rewrite <- (cdot_sum K (length v)) by auto. exact Uv.
Qed.
Print Assumptions C41_tensor_tree_any_scalars.

(** The tree over the complex numbers. *)
Theorem C41_tensor_tree :
  forall (rank_of : arr C_star -> nat), (forall n, rank_of (eye n n) = n) ->
  forall (h : heap C_star) rho dims rank n_branch d fuel,
    wf rho -> shape rho = [d; d] -> 0 < d -> 2 <= length dims -> 2 <= n_branch -> 0 < rank -> Forall (fun n => rank <= n) dims ->
    2 * length dims + 2 <= fuel ->
    exists h' ks, tensor_tree_template vnorm Csqrt Cinv rank_of fuel h rho dims rank n_branch = Ok (h', length h) /\
      (forall n, n < length h -> hget h' n = hget h n) /\
      stands_for h' (length h) rho d (length dims) ks (fun k => nth k dims 0).
Proof.
  intros rank_of Re h rho dims rank nb d fuel W E Hd Hl Hnb Hr Hp Hf.
  destruct (C41_tensor_tree_any_scalars C_star vnorm Csqrt Cinv rank_of) with (h := h) (rho := rho) (dims := dims) (rank := rank) (n_branch := nb) (d := d) (fuel := fuel) as (h' & ks & Et & Eo & Es); auto; try lia.
  - intros v Uv. unfold vnorm. rewrite Uv. cbn [fst r1 C_star]. rewrite sqrt_1. apply Cinv_1.
  - change (r0 : C_star) with (RtoC 0). rewrite Csqrt_pos by lra. rewrite sqrt_0. reflexivity.
  - change (r1 : C_star) with (RtoC 1). rewrite Csqrt_pos by lra. rewrite sqrt_1. reflexivity.
  - exists h', ks. split; auto. split; auto. destruct (Nat.eqb_spec (length dims) 1) as [E1|_]; [lia|exact Es].
Qed.
Print Assumptions C41_tensor_tree.

(** Ranks above a number of tiers are refused; one mode of 5 tiers gets a leaf of [rank] tiers
    (see [C41_tensor_tree_any_scalars]). *)
Theorem C41_tensor_tree_rank_refused :
  forall (K : StarRing) nrm sqrtf inv rank_of fuel (h : heap K) rho dims rank n_branch d n,
    shape rho = [d; d] -> 0 < rank -> In n dims -> n < rank ->
    tensor_tree_template nrm sqrtf inv rank_of fuel h rho dims rank n_branch = Raise AssertionError.
Proof.
  intros K nrm sqrtf inv rank_of fuel h rho dims rank nb d n E Hr Hn Hlt. unfold tensor_tree_template, get_n_state. rewrite E, Nat.eqb_refl. cbn [bind].
  unfold first_unit. destruct (Nat.eqb_spec rank 0); [lia|]. cbn [bind].
  replace (forallb (fun i => rank <=? i) dims) with false; [reflexivity|]. symmetry. apply not_true_iff_false. rewrite forallb_forall. intros H. specialize (H n Hn). apply Nat.leb_le in H. lia.
Qed.
Print Assumptions C41_tensor_tree_rank_refused.

(** Three modes with 3, 2 and 4 tiers. *)
Example C41_template_example :
  wf rho2 /\ shape rho2 = [2; 2] /\
  match simple_heom (K := Z_star) [] rho2 [3; 2; 4] with
  | Ok (h', r) => length h' = 6 /\ shape (array_at h' r) = [2; 2; 3; 2; 4] /\ get (array_at h' r) [1; 0; 0; 0; 0] = 3%Z
  | Raise _ => False
  end /\
  match tensor_train_template (K := Z_star) [] rho2 [3; 2; 4] 2 with
  | Ok (h', r) => length h' = 9 /\ shape (array_at h' 3) = [4; 3; 2] /\ shape (array_at h' 5) = [2; 2; 2] /\ shape (array_at h' 7) = [2; 4]
  | Raise _ => False
  end /\
  match tensor_tree_template (K := Z_star) (fun _ => 1%Z) (fun x => x) (fun x => x) (fun a => nth 0 (shape a) 0) 8 [] rho2 [3; 2; 4] 2 2 with
  | Ok (h', r) => length h' = 8 /\ shape (array_at h' r) = [2; 2; 2] /\ map (fun n => shape (array_at h' n)) (seq 0 8) = [[2; 2; 2]; []; []; [2; 2; 3]; [2; 4; 2]; []; []; []]
  | Raise _ => False
  end.
Proof. vm_compute. repeat split. Qed.
