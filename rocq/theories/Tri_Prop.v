(** Properties C29 and C30. *)
From Coq Require Import List Arith Bool Lia Permutation Sorted ZArith.
From Verif Require Import Py Alg ListX NdArray_Model Contract_Spec Tri_Model Tri_Spec Tri_Proof.
Import ListNotations.

(** ** C29 *)
Theorem C29_every_number_once :
  forall ns, Permutation (triangular ns) (seq 0 (product ns)).
Proof. exact triangular_perm. Qed.
Print Assumptions C29_every_number_once.

Theorem C29_by_total_degree :
  forall ns, StronglySorted (fun a b => degree ns a <= degree ns b) (triangular ns).
Proof. exact triangular_sorted. Qed.
Print Assumptions C29_by_total_degree.

Theorem C29_starts_with_zero :
  forall ns, 0 < product ns -> exists l, triangular ns = 0 :: l.
Proof. exact triangular_head. Qed.
Print Assumptions C29_starts_with_zero.

Example C29_example : triangular [2; 3; 2] = [0; 1; 2; 6; 3; 7; 4; 8; 5; 9; 10; 11].
Proof. reflexivity. Qed.
Example C29_example_degrees :
  map (degree [2; 3; 2]) (triangular [2; 3; 2]) = [0; 1; 1; 1; 2; 2; 2; 2; 3; 3; 3; 4].
Proof. reflexivity. Qed.

(** ** C30 *)
Theorem C30_entries :
  forall (K : StarRing) np ns ax, ax <= length ns -> np <= prod ns ->
    exists a : arr K, auto_array (Some ax) np ns = Ok a /\ wf a /\ shape a = ins ax np ns /\
      forall i x, i < np -> in_range x ns ->
        get a (ins ax i x) = delta (ravel ns x) (nth i (triangular ns) 0).
Proof. exact auto_array_some. Qed.
Print Assumptions C30_entries.

Theorem C30_orthonormal :
  forall (K : StarRing) np ns ax (a : arr K), ax <= length ns -> np <= prod ns ->
    auto_array (Some ax) np ns = Ok a ->
    forall i i', i < np -> i' < np ->
      sumL (indices ns) (fun r => rmul (rconj (get a (ins ax i r))) (get a (ins ax i' r)))
      = delta i i'.
Proof. exact auto_isometric. Qed.
Print Assumptions C30_orthonormal.

(** At the root the array is the all-zero product state. *)
Theorem C30_root :
  forall (K : StarRing) np ns, 0 < prod ns ->
    exists a : arr K, auto_array None np ns = Ok a /\ wf a /\ shape a = ns /\
      forall x, in_range x ns -> get a x = delta (ravel ns x) 0.
Proof. exact auto_array_none. Qed.
Print Assumptions C30_root.

Theorem C30_excitation_equal_dimensions :
  forall (K : StarRing) n k np ax (a : arr K), ax <= k -> np <= n ^ k ->
    auto_array (Some ax) np (repeat n k) = Ok a -> (r1 : K) <> r0 ->
    forall i i' x x', i <= i' -> i' < np -> in_range x (repeat n k) -> in_range x' (repeat n k) ->
      get a (ins ax i x) <> r0 -> get a (ins ax i' x') <> r0 -> list_sum x <= list_sum x'.
Proof. exact auto_excitation. Qed.
Print Assumptions C30_excitation_equal_dimensions.

(** For child dimensions 2 and 3 row 2 is the doubly excited state (0,2) and the
    later row 3 the singly excited (1,0). *)
Theorem C30_excitation_unequal_dimensions_refuted :
  exists a : arr Z_star, auto_array (Some 0) 4 [2; 3] = Ok a /\
    get a [2; 0; 2] = 1%Z /\ get a [3; 1; 0] = 1%Z /\ list_sum [0; 2] > list_sum [1; 0].
Proof. eexists. split; [reflexivity|]. cbn. repeat split; lia. Qed.
Print Assumptions C30_excitation_unequal_dimensions_refuted.

Example C30_example :
  @auto_array Z_star (Some 1) 3 [2; 2] =
  Ok (zarr [2; 3; 2] [1;0; 0;1; 0;0;   0;0; 0;0; 1;0]%Z).
Proof. reflexivity. Qed.
