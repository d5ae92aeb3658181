(** Truncated singular value decompositions. *)
From Coq Require Import List Arith Bool ZArith.
From Verif Require Import Py Alg Ord ListX NdArray_Model.
Import ListNotations.

Section Svd.
(** Singular values are real numbers [K], matrices have entries in [C]; [inj]
    is the embedding. *)
Variable K : OrdRing.
Variable C : StarRing.
Variable inj : K -> C.

(** /repo/minitn/lib/numerical.py:407-411, the loop
    [for n, s_i in reversed(list(enumerate(s)))]: running total of the smallest
    values, stop at the first total above [err]. *)
Fixpoint scan_tail (l : list (nat * K)) (total err : K) : option nat :=
  match l with
  | [] => None
  | (n, s_i) :: l =>
      let total := radd total s_i in
      if gtb total err then Some (n + 1) else scan_tail l total err
  end.

Definition enumerate {A} (l : list A) : list (nat * A) := combine (seq 0 (length l)) l.

(** /repo/minitn/lib/numerical.py:405-415: the rank that is finally requested;
    [rank] may be any integer. *)
Definition requested_rank (s : list K) (rank : option Z) (err : option K) : option Z :=
  match err with
  | None => rank
  | Some err =>
      match scan_tail (rev (enumerate s)) r0 err with
      | Some r => Some (Z.of_nat r)
      | None => match rank with None => Some 1%Z | Some r => Some r end
      end
  end.

(** [u[:, :r]] and [vh[:r, :]] for matrices (slices clamp at the end). *)
Definition take_cols (r : nat) (u : arr C) : arr C :=
  build [nth 0 (shape u) 0; min r (nth 1 (shape u) 0)] (fun idx => get u idx).
Definition take_rows (r : nat) (v : arr C) : arr C :=
  build [min r (nth 0 (shape v) 0); nth 1 (shape v) 0] (fun idx => get v idx).

(** [np.diag(s)] *)
Definition diag (s : list C) : arr C :=
  build [length s; length s] (fun idx =>
    if nth 0 idx 0 =? nth 1 idx 0 then nth (nth 0 idx 0) s r0 else r0).

(** /repo/minitn/lib/numerical.py:403-421 [compressed_svd].  The call to
    [scipy.linalg.svd] is the argument [usv]. *)
Definition compressed_svd (usv : arr C * list K * arr C) (rank : option Z) (err : option K)
  : res (arr C * arr C * arr C) :=
  let '(u, s, vh) := usv in
  let rank := requested_rank s rank err in
  match rank with
  | None => Ok (u, diag (map inj s), vh)
  | Some r =>
      if (r <=? 0)%Z then Raise RuntimeError
      else if (r <=? Z.of_nat (length s))%Z
           then let r := Z.to_nat r in
                Ok (take_cols r u, diag (map inj (firstn r s)), take_rows r vh)
           else Ok (u, diag (map inj s), vh)
  end.

(** /repo/minitn/algorithms/dmrg.py:233-254 [compress_svd]; [m] is a natural
    number here. *)
Definition compress_svd (U : arr C) (S : list K) (V : arr C) (m : nat)
  : arr C * list K * arr C * K :=
  let dim := min (length S) m in
  (take_cols dim U, firstn dim S, take_rows dim V, sum_list (skipn dim S)).

End Svd.
Arguments scan_tail {K} _ _ _. Arguments requested_rank {K} _ _ _.
Arguments take_cols {C} _ _. Arguments take_rows {C} _ _. Arguments diag {C} _.
Arguments compressed_svd {K C} _ _ _ _. Arguments compress_svd {K C} _ _ _ _.
