(** What it means for a network to stand for a density matrix on the zeroth tier. *)
From Coq Require Import String List Arith Bool Permutation DecimalString.
From Verif Require Import Py Alg ListX NdArray_Model Net_Model Net_Spec.
Import ListNotations.
Local Open Scope nat_scope.

(** Decimal rendering. *)
Definition dec (n : nat) : string := NilEmpty.string_of_uint (Nat.to_uint n).

Section S.
Variable K : StarRing.

(** The array of an object. *)
Definition array_at (h : heap K) (n : id) : arr K :=
  match oarr (hget h n) with Some a => a | None => mkArr [] [] end.

(** The objects below [r] form a tree whose arrays fit; the leaves are the two leaves of the
    density matrix, named by the number of modes and the next number, and one leaf for each
    mode of [ks], named by its number; mode [k] has [dim k] tiers.  The tensor it
    stands for is [rho] where all tiers are zero, and zero elsewhere. *)
Definition stands_for (h : heap K) (r : id) (rho : arr K) (d m : nat) (ks : list nat) (dim : nat -> nat) : Prop :=
  exists t, top t = r /\ hangs h None t /\ (forall n, In n (nids t) -> exists a, oarr (hget h n) = Some a) /\
    fits (array_at h) None 0 t /\
    map (fun n => oname (hget h n)) (lids t) = map (fun k => Some (dec k)) (m :: m + 1 :: ks) /\
    Permutation ks (seq 0 m) /\
    ldims (array_at h) None 0 t = d :: d :: map dim ks /\
    forall i j v, i < d -> j < d -> in_range v (map dim ks) ->
      dense (array_at h) t (i :: j :: v) = if forallb (Nat.eqb 0) v then get rho [i; j] else r0.
End S.
Arguments array_at {K} _ _. Arguments stands_for {K} _ _ _ _ _ _ _.
