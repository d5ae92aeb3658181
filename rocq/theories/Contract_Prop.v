(** Properties C01, C02, C03 and C56: contractions of arrays. *)
From Coq Require Import List Arith ZArith Lia.
From Verif Require Import Py Alg ListX NdArray_Model NdArray_Proof
  Contract_Model Contract_Spec Contract_Proof Mode_Proof Projector_Proof.
Import ListNotations.

(** A 2x3x2 array and matrices of integers used by the examples below. *)
Definition exA : arr Z_star := zarr [2;3;2] [1;2;3;4;5;6;7;8;9;10;11;12]%Z.
Definition exM : arr Z_star := zarr [3;2] [1;0;2;-1;0;3]%Z.
Definition exN : arr Z_star := zarr [2;2] [0;1;1;5]%Z.

(** ** C01 *)
Theorem C01_partial_product_entries :
  forall (K : StarRing) (a : arr K) i (b : arr K) j,
    i < ndim a -> j < ndim b -> nth i (shape a) 0 = nth j (shape b) 0 ->
    exists c, partial_product a i (Some b) j = Ok c /\ contracts a i b j c.
Proof. exact partial_product_arr_ok. Qed.
Print Assumptions C01_partial_product_entries.

Example C01_example :
  1 < ndim exA /\ 0 < ndim exM /\ nth 1 (shape exA) 0 = nth 0 (shape exM) 0 /\
  partial_product exA 1 (Some exM) 0
  = Ok (zarr [2;2;2] [7;10;12;14;25;28;24;26]%Z).
Proof. repeat split; cbn; try lia; reflexivity. Qed.

(** The result is determined by the specification. *)
Theorem C01_contracts_determines :
  forall (K : StarRing) (a : arr K) i (b : arr K) j c c',
    contracts a i b j c -> contracts a i b j c' -> c = c'.
Proof. exact contracts_unique. Qed.
Print Assumptions C01_contracts_determines.

Theorem C01_partial_product_none :
  forall (K : StarRing) (a : arr K) i j, partial_product a i None j = Ok a.
Proof. reflexivity. Qed.
Print Assumptions C01_partial_product_none.

(** Any other combination of axes is refused. *)
Theorem C01_partial_product_refuses :
  forall (K : StarRing) (a : arr K) i (b : arr K) j,
    ~ (i < ndim a /\ j < ndim b /\ nth i (shape a) 0 = nth j (shape b) 0) ->
    partial_product a i (Some b) j = Raise ValueError.
Proof.
  exact (fun K a i b j H =>
    match partial_product_arr_err K a i b j with
    | or_introl p => match H p with end
    | or_intror q => q
    end).
Qed.
Print Assumptions C01_partial_product_refuses.

Example C01_refuses_example : partial_product exA 0 (Some exM) 0 = Raise ValueError.
Proof. reflexivity. Qed.

Theorem C01_reshape_variant_agrees :
  forall (K : StarRing) (a : arr K) i (b : arr K) j,
    wf a -> wf b -> i < ndim a -> j < ndim b ->
    nth i (shape a) 0 = nth j (shape b) 0 -> prod (shape a) <> 0 ->
    partial_product_reshape a i b j = partial_product a i (Some b) j.
Proof. exact reshape_variant_agrees. Qed.
Print Assumptions C01_reshape_variant_agrees.

Example C01_reshape_example :
  wf exA /\ wf exM /\ prod (shape exA) <> 0 /\
  partial_product_reshape exA 1 exM 0 = partial_product exA 1 (Some exM) 0 /\
  is_ok (partial_product_reshape exA 1 exM 0) = true.
Proof. repeat split; try reflexivity. discriminate. Qed.

(** ** C02 *)
Theorem C02_different_axes_commute :
  forall (K : StarRing) (a : arr K) i k (M N : arr K) p q r s,
    i <> k -> i < ndim a -> k < ndim a ->
    shape M = [p; q] -> shape N = [r; s] ->
    nth i (shape a) 0 = p -> nth k (shape a) 0 = r ->
    exists c,
      bind (partial_product a i (Some M) 0) (fun b => partial_product b k (Some N) 0) = Ok c /\
      bind (partial_product a k (Some N) 0) (fun b => partial_product b i (Some M) 0) = Ok c.
Proof. exact pp_comm. Qed.
Print Assumptions C02_different_axes_commute.

Example C02_commute_example :
  bind (partial_product exA 1 (Some exM) 0) (fun b => partial_product b 2 (Some exN) 0)
  = bind (partial_product exA 2 (Some exN) 0) (fun b => partial_product b 1 (Some exM) 0) /\
  is_ok (bind (partial_product exA 1 (Some exM) 0) (fun b => partial_product b 2 (Some exN) 0)) = true /\
  partial_product exA 1 (Some exM) 0 <> Ok exA.
Proof. repeat split; try reflexivity. vm_compute. discriminate. Qed.

Theorem C02_same_axis_composes :
  forall (K : StarRing) (a : arr K) i (M N P : arr K) p q r,
    i < ndim a -> shape M = [p; q] -> shape N = [q; r] -> nth i (shape a) 0 = p ->
    mat_mul_of M N P ->
    bind (partial_product a i (Some M) 0) (fun b => partial_product b i (Some N) 0)
    = partial_product a i (Some P) 0.
Proof. exact pp_comp. Qed.
Print Assumptions C02_same_axis_composes.

Example C02_compose_example :
  exists P, matmul exM exN = Ok P /\ mat_mul_of exM exN P /\
  bind (partial_product exA 1 (Some exM) 0) (fun b => partial_product b 1 (Some exN) 0)
    = partial_product exA 1 (Some P) 0.
Proof.
  eexists. split; [reflexivity|]. split; [|reflexivity].
  exists 3, 2, 2. repeat split.
  intros i j Hi Hj.
  destruct i as [|[|[|]]]; try lia; destruct j as [|[|]]; try lia; reflexivity.
Qed.

Theorem C02_identity_acts_trivially :
  forall (K : StarRing) (a : arr K) i n,
    wf a -> i < ndim a -> nth i (shape a) 0 = n ->
    partial_product a i (Some (eye n n)) 0 = Ok a.
Proof. exact pp_id. Qed.
Print Assumptions C02_identity_acts_trivially.

Example C02_identity_example : partial_product exA 1 (Some (eye 3 3)) 0 = Ok exA.
Proof. reflexivity. Qed.

(** ** C03 *)
Theorem C03_partial_trace_entries :
  forall (K : StarRing) (a : arr K) i (b : arr K) j,
    wf a -> wf b -> i < ndim a -> j < ndim b ->
    del i (shape a) = del j (shape b) ->
    nth i (shape a) 0 <> 0 -> nth j (shape b) 0 <> 0 ->
    exists c, partial_trace a (Some i) b (Some j) = Ok c /\ traces a i b j c.
Proof. exact partial_trace_ok. Qed.
Print Assumptions C03_partial_trace_entries.

Definition exB : arr Z_star := zarr [2;2;4] [1;0;0;1; 2;1;0;0; 0;0;1;1; 1;1;1;1]%Z.
Definition exC : arr Z_star := zarr [3;2;2] [1;2;3;4;5;6;7;8;9;10;11;12]%Z.
Example C03_example :
  wf exC /\ wf exB /\ 0 < ndim exC /\ 2 < ndim exB /\ del 0 (shape exC) = del 2 (shape exB) /\
  partial_trace exC (Some 0) exB (Some 2)
  = Ok (zarr [3;4] [9;6;7;8; 25;14;15;20; 41;22;23;32]%Z).
Proof. repeat split; cbn; try lia; reflexivity. Qed.

Theorem C03_full_scalar_product :
  forall (K : StarRing) (a b : arr K),
    wf a -> wf b -> shape a = shape b ->
    exists c, partial_trace a None b None = Ok c /\ traces_all a b c.
Proof. exact partial_trace_all_ok. Qed.
Print Assumptions C03_full_scalar_product.

Example C03_scalar_example :
  partial_trace exA None exA None = Ok (zarr [] [650]%Z).
Proof. reflexivity. Qed.

Theorem C03_mixed_axes_rejected :
  forall (K : StarRing) (a b : arr K) i j,
    partial_trace a (Some i) b None = Raise TypeError /\
    partial_trace a None b (Some j) = Raise TypeError.
Proof. exact partial_trace_mixed. Qed.
Print Assumptions C03_mixed_axes_rejected.

(** ** C56: projector *)
Theorem C56_projector_entries :
  forall (K : StarRing) (a : arr K) axis,
    wf a -> axis < ndim a -> nth axis (shape a) 0 <> 0 ->
    exists p, projector a axis = Ok p /\ wf p /\
      shape p = del axis (shape a) ++ del axis (shape a) /\
      forall x y, in_range x (del axis (shape a)) -> in_range y (del axis (shape a)) ->
        get p (x ++ y) = sumn (nth axis (shape a) 0)
          (fun i => rmul (get a (ins axis i x)) (rconj (get a (ins axis i y)))).
Proof. exact projector_ok. Qed.
Print Assumptions C56_projector_entries.

Theorem C56_projector_idempotent :
  forall (K : StarRing) (a : arr K) axis p,
    wf a -> axis < ndim a -> nth axis (shape a) 0 <> 0 -> isometric a axis ->
    projector a axis = Ok p ->
    forall x y, in_range x (del axis (shape a)) -> in_range y (del axis (shape a)) ->
      sumL (indices (del axis (shape a))) (fun z => rmul (get p (x ++ z)) (get p (z ++ y)))
      = get p (x ++ y).
Proof. exact projector_idem. Qed.
Print Assumptions C56_projector_idempotent.

Theorem C56_projector_hermitian :
  forall (K : StarRing) (a : arr K) axis p,
    wf a -> axis < ndim a -> nth axis (shape a) 0 <> 0 ->
    projector a axis = Ok p ->
    forall x y, in_range x (del axis (shape a)) -> in_range y (del axis (shape a)) ->
      get p (y ++ x) = rconj (get p (x ++ y)).
Proof. exact projector_herm. Qed.
Print Assumptions C56_projector_hermitian.

(** Two orthonormal rows with an imaginary entry: rank-two projector in dimension three. *)
Definition exIso : arr G_star :=
  garr [3;2] [(0,1);(0,0); (0,0);(1,0); (0,0);(0,0)]%Z.
Example C56_example :
  wf exIso /\ 1 < ndim exIso /\ isometric exIso 1 /\
  exists p, projector exIso 1 = Ok p /\ get p [0;0] = (1,0)%Z /\ get p [2;2] = (0,0)%Z.
Proof.
  split; [reflexivity|]. split; [cbn; lia|]. split.
  - intros i i' Hi Hi'. cbn in Hi, Hi'.
    destruct i as [|[|]]; try lia; destruct i' as [|[|]]; try lia; reflexivity.
  - eexists. split; [reflexivity|]. split; reflexivity.
Qed.
