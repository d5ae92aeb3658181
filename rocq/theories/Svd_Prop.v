(** Properties C27 and C28. *)
From Coq Require Import List Arith Bool ZArith Lia.
From Verif Require Import Py Alg Ord ListX NdArray_Model Svd_Model Svd_Spec Svd_Proof.
Import ListNotations.

(** ** C27 *)
Theorem C27_error_bound_minimal :
  forall (K : OrdRing) (C : StarRing) (inj : K -> C) (a : arr C) m n (u vh : arr C) s rank err,
    factorises inj a m n u s vh -> (forall x, In x s -> ole r0 x) -> ole r0 err ->
    olt err (sum_list s) ->
    exists r w d v, compressed_svd inj (u, s, vh) rank (Some err) = Ok (w, d, v) /\
      r <= length s /\ smallest_rank s err r /\ leading_part inj m n r u s vh w d v.
Proof. exact svd_err_ok. Qed.
Print Assumptions C27_error_bound_minimal.

Theorem C27_small_matrix_keeps_one :
  forall (K : OrdRing) (C : StarRing) (inj : K -> C) (a : arr C) m n (u vh : arr C) s err,
    factorises inj a m n u s vh -> (forall x, In x s -> ole r0 x) -> s <> [] ->
    ole (sum_list s) err ->
    smallest_rank s err 1 /\
    exists w d v, compressed_svd inj (u, s, vh) None (Some err) = Ok (w, d, v) /\
      leading_part inj m n 1 u s vh w d v.
Proof. exact svd_err_within. Qed.
Print Assumptions C27_small_matrix_keeps_one.

Theorem C27_rank_only :
  forall (K : OrdRing) (C : StarRing) (inj : K -> C) (a : arr C) m n (u vh : arr C) s r,
    factorises inj a m n u s vh -> (0 < r)%Z ->
    exists w d v, compressed_svd inj (u, s, vh) (Some r) None = Ok (w, d, v) /\
      leading_part inj m n (min (Z.to_nat r) (length s)) u s vh w d v.
Proof. exact svd_rank_ok. Qed.
Print Assumptions C27_rank_only.

Theorem C27_rank_and_loose_error :
  forall (K : OrdRing) (C : StarRing) (inj : K -> C) (a : arr C) m n (u vh : arr C) s r err,
    factorises inj a m n u s vh -> (forall x, In x s -> ole r0 x) -> ole (sum_list s) err ->
    (0 < r)%Z ->
    exists w d v, compressed_svd inj (u, s, vh) (Some r) (Some err) = Ok (w, d, v) /\
      leading_part inj m n (min (Z.to_nat r) (length s)) u s vh w d v.
Proof. exact svd_rank_err_within. Qed.
Print Assumptions C27_rank_and_loose_error.

Theorem C27_nonpositive_rank_rejected :
  forall (K : OrdRing) (C : StarRing) (inj : K -> C) (usv : arr C * list K * arr C) r,
    (r <= 0)%Z -> compressed_svd inj usv (Some r) None = Raise RuntimeError.
Proof. exact svd_bad_rank. Qed.
Print Assumptions C27_nonpositive_rank_rejected.

(** A complex 3 by 3 matrix with singular values 5, 2, 1. *)
Definition exS : list Z := [5; 2; 1]%Z.
(** Integers as singular values, Gaussian integers as entries. *)
Definition injZ (x : Z) : car G_star := (x, 0%Z).
Definition g (l : list Z) : list (Z * Z) := map (fun x => (x, 0%Z)) l.
Definition exI : list (Z * Z) := [(0,1);(0,0);(0,0); (0,0);(1,0);(0,0); (0,0);(0,0);(1,0)]%Z.
Definition exU : arr G_star := garr [3;3] exI.
Definition exV : arr G_star := garr [3;3] (g [1;0;0; 0;1;0; 0;0;1]%Z).
Definition exM : arr G_star :=
  garr [3;3] [(0,5);(0,0);(0,0); (0,0);(2,0);(0,0); (0,0);(0,0);(1,0)]%Z.

Example C27_example_hyp :
  @factorises Z_ord G_star injZ exM 3 3 exU exS exV /\ (forall x, In x exS -> @ole Z_ord 0%Z x) /\
  @olt Z_ord 1%Z (@sum_list Z_ord exS).
Proof.
  split; [|split; [|reflexivity]].
  - repeat (split; [reflexivity|]). intros i j Hi Hj.
    destruct i as [|[|[|]]]; try lia; destruct j as [|[|[|]]]; try lia; reflexivity.
  - intros x [<-|[<-|[<-|[]]]]; reflexivity.
Qed.

(** err = 1 keeps two values: the discarded tail is 1, keeping one would discard 3. *)
Example C27_example_kept :
  @compressed_svd Z_ord G_star injZ (exU, exS, exV) None (Some 1%Z)
  = Ok (garr [3;2] [(0,1);(0,0);(0,0);(1,0);(0,0);(0,0)]%Z, garr [2;2] (g [5;0;0;2]%Z),
        garr [2;3] (g [1;0;0;0;1;0]%Z)).
Proof. reflexivity. Qed.

(** "Never returns more than the requested rank" is false when [err] is also given. *)
Theorem C27_rank_is_upper_bound_refuted :
  exists (u vh a : arr G_star) (s : list Z_ord) (r err : Z) w d v,
    @factorises Z_ord G_star injZ a 3 3 u s vh /\ (forall x, In x s -> @ole Z_ord r0 x) /\ (0 < r)%Z /\ (0 < err)%Z /\
    @compressed_svd Z_ord G_star injZ (u, s, vh) (Some r) (Some err) = Ok (w, d, v) /\
    (r < Z.of_nat (nth 1 (shape w) 0%nat))%Z.
Proof.
  exists exU, exV, exM, exS, 1%Z, 1%Z.
  do 3 eexists. destruct C27_example_hyp as (H1 & H2 & _).
  split; [exact H1|]. split; [exact H2|]. split; [lia|]. split; [lia|].
  split; [reflexivity|]. reflexivity.
Qed.
Print Assumptions C27_rank_is_upper_bound_refuted.

(** ** C28 *)
Theorem C28_untruncated_reproduces :
  forall (K : OrdRing) (C : StarRing) (inj : K -> C) (a : arr C) m n (u vh : arr C) s,
    factorises inj a m n u s vh ->
    exists w d v, compressed_svd inj (u, s, vh) None None = Ok (w, d, v) /\
      forall i j, i < m -> j < n ->
        get a [i; j] = sumn (length s) (fun p => sumn (length s) (fun q =>
           rmul (rmul (get w [i; p]) (get d [p; q])) (get v [q; j]))).
Proof. exact svd_exact. Qed.
Print Assumptions C28_untruncated_reproduces.

Theorem C28_truncation_loses_dropped_triplets :
  forall (K : OrdRing) (C : StarRing) (inj : K -> C) (a : arr C) m n (u vh : arr C) s rank err w d v,
    factorises inj a m n u s vh ->
    compressed_svd inj (u, s, vh) rank err = Ok (w, d, v) ->
    exists r, r <= length s /\ shape w = [m; r] /\ shape d = [r; r] /\ shape v = [r; n] /\
    forall i j, i < m -> j < n ->
      get a [i; j] =
      radd (sumn r (fun p => sumn r (fun q =>
             rmul (rmul (get w [i; p]) (get d [p; q])) (get v [q; j]))))
           (sumn (length s - r) (fun k =>
             rmul (rmul (get u [i; r + k]) (inj (nth (r + k) s r0))) (get vh [r + k; j]))).
Proof. exact svd_loss. Qed.
Print Assumptions C28_truncation_loses_dropped_triplets.

Theorem C28_dmrg_compress_svd :
  forall (K : OrdRing) (C : StarRing) (inj : K -> C) (a : arr C) m n (u vh : arr C) s k,
    factorises inj a m n u s vh ->
    let r := min (length s) k in
    let '(U, T, V, e) := compress_svd u s vh k in
    T = firstn r s /\ e = discarded s r /\ shape U = [m; r] /\ shape V = [r; n] /\
    forall i j, i < m -> j < n ->
      get a [i; j] =
      radd (sumn r (fun p => rmul (rmul (get U [i; p]) (inj (nth p T r0))) (get V [p; j])))
           (sumn (length s - r) (fun q =>
             rmul (rmul (get u [i; r + q]) (inj (nth (r + q) s r0))) (get vh [r + q; j]))).
Proof. exact compress_svd_loss. Qed.
Print Assumptions C28_dmrg_compress_svd.

Example C28_example :
  @compress_svd Z_ord G_star exU exS exV 2
  = (garr [3;2] [(0,1);(0,0);(0,0);(1,0);(0,0);(0,0)]%Z, [5;2]%Z, garr [2;3] (g [1;0;0;0;1;0]%Z), 1%Z).
Proof. reflexivity. Qed.
