(** Wavefunctions of the form  Psi[n_0..] = sum_m C_0[n_0,m_0] ... A[m_0..]  and sums of
    products of operators, with all indices written out. *)
From Coq Require Import List Arith.
From Verif Require Import Py Alg ListX NdArray_Model.
Import ListNotations.

Section Spec.
Context {K : StarRing}.
Definition mat := nat -> nat -> K.
(** the product over all axes *)
Fixpoint kron (Ms : list mat) (x y : list nat) : K :=
  match Ms, x, y with
  | M :: Ms, a :: x, b :: y => rmul (M a b) (kron Ms x y)
  | _, _, _ => r1
  end.
(** the wavefunction *)
Definition psi (Cs : list mat) (ms : list nat) (A : list nat -> K) (n : list nat) : K :=
  sumL (indices ms) (fun m => rmul (kron Cs n m) (A m)).
(** one product of operators, given as a list of pairs (axis, matrix) *)
Definition op_at (term : list (nat * arr K)) (j : nat) : mat :=
  match find (fun p => fst p =? j) term with
  | Some (_, h) => fun x y => get h [x; y]
  | None => delta
  end.
Definition apply_term (ns : list nat) (term : list (nat * arr K)) (f : list nat -> K) (n : list nat) : K :=
  sumL (indices ns) (fun n' => rmul (kron (map (op_at term) (seq 0 (length ns))) n n') (f n')).
Definition apply_ham (ns : list nat) (terms : list (list (nat * arr K))) (f : list nat -> K) (n : list nat) : K :=
  sumL terms (fun term => apply_term ns term f n).
(** scalar product of functions of all indices *)
Definition braket (ns : list nat) (f g : list nat -> K) : K :=
  sumL (indices ns) (fun n => rmul (rconj (f n)) (g n)).
(** the density matrix of axis [i] *)
Definition density (ms : list nat) (A : list nat -> K) (i p q : nat) : K :=
  sumL (indices (del i ms)) (fun r => rmul (A (ins i p r)) (rconj (A (ins i q r)))).
(** orthonormal columns *)
Definition orthonormal (n m : nat) (C : mat) : Prop :=
  forall p q, p < m -> q < m -> sumn n (fun x => rmul (rconj (C x p)) (C x q)) = delta p q.
(** columns orthogonal to those of [C] *)
Definition orthogonal (n m : nat) (C F : mat) : Prop :=
  forall p q, p < m -> q < m -> sumn n (fun x => rmul (rconj (C x p)) (F x q)) = r0.
Definition entries (M : arr K) : mat := fun x y => get M [x; y].
End Spec.

(** The effective equations: [Ds] and [B] are the products of the Hamiltonian with the matrices
    [Cs] and the tensor [A]; [err] is the number added to the density matrices. *)
Section Equations.
Context {K : StarRing}.
Variables (ns ms : list nat) (Cs : list (@mat K)) (A : list nat -> K) (err : K).
Definition state_of : list nat -> K := psi Cs ms A.
(** the state with matrix [i] replaced *)
Definition varied (i : nat) (F : mat) : list nat -> K := psi (upd i F Cs) ms A.
Definition frobenius (n m : nat) (F D : @mat K) : K := sumn n (fun x => sumn m (fun q => rmul (rconj (F x q)) (D x q))).
Definition no_mat : @mat K := fun _ _ => r0.
Definition solves (terms : list (list (nat * arr K))) (Ds : list mat) (B : list nat -> K) : Prop :=
  (** the tensor: the product with the Hamiltonian, projected on all configurations *)
  (forall m, in_range m ms -> B m = sumL (indices ns) (fun n => rmul (rconj (kron Cs n m)) (apply_ham ns terms state_of n))) /\
  (** the gauge *)
  (forall i, i < length ns -> orthogonal (nth i ns 0) (nth i ms 0) (nth i Cs no_mat) (nth i Ds no_mat)) /\
  (** equal scalar products with every variation of one matrix that keeps the gauge *)
  (forall i F, i < length ns -> orthogonal (nth i ns 0) (nth i ms 0) (nth i Cs no_mat) F ->
    radd (braket ns (varied i F) (varied i (nth i Ds no_mat))) (rmul err (frobenius (nth i ns 0) (nth i ms 0) F (nth i Ds no_mat)))
    = braket ns (varied i F) (apply_ham ns terms state_of)).
End Equations.

(** The sizes for which [_partial_transform] acts as intended in all steps of one term. *)
From Verif Require Import PoDvr_Spec.
Definition readable {K : StarRing} (ns ms : list nat) (term : list (nat * arr K)) : Prop :=
  (forall j, In j (map fst term) -> equal_after j ms) /\
  (forall i j, In i (map fst term) -> In j (map fst term) -> i <> j -> equal_after j (upd i (nth i ns 0) ms)).
(** at most one matrix per axis, all of the right size *)
Definition well_formed {K : StarRing} (ns : list nat) (term : list (nat * arr K)) : Prop :=
  NoDup (map fst term) /\ Forall (fun p => fst p < length ns /\ shape (snd p) = [nth (fst p) ns 0; nth (fst p) ns 0]) term.

(** The change of the state when all matrices and the tensor change: the tangent vectors at the state *)
Definition tangent {K : StarRing} (ms : list nat) (Cs : list (@mat K)) (A : list nat -> K) (Fs : list mat) (G : list nat -> K) (n : list nat) : K :=
  radd (psi Cs ms G n) (sumL (seq 0 (length Cs)) (fun i => varied ms Cs A i (nth i Fs no_mat) n)).

(** [vec] holds the entries of the matrices [Cs] and of the tensor [A], one after the other. *)
Definition pieces {K : StarRing} (sl : list (nat * nat)) (Cs : list (arr K)) (A : arr K) (vec : list K) : Prop :=
  Forall2 (fun s C => wf C /\ shape C = [fst s; snd s]) sl Cs /\ wf A /\ shape A = map snd sl /\ vec = concat (map (@data K) (Cs ++ [A])).
(** [inv] inverts the density matrices plus [err] *)
Definition inverts {K : StarRing} (ms : list nat) (A : list nat -> K) (err : K) (inv : arr K -> res (arr K)) : Prop :=
  forall i M, i < length ms -> wf M -> shape M = [nth i ms 0; nth i ms 0] ->
    (forall p q, p < nth i ms 0 -> q < nth i ms 0 -> get M [p; q] = radd (density ms A i p q) (rmul err (delta p q))) ->
    exists N, inv M = Ok N /\ shape N = [nth i ms 0; nth i ms 0] /\
      forall p q, p < nth i ms 0 -> q < nth i ms 0 -> sumn (nth i ms 0) (fun k => rmul (get N [p; k]) (get M [k; q])) = delta p q.
(** all matrices have orthonormal columns *)
Definition all_orthonormal {K : StarRing} (sl : list (nat * nat)) (Cs : list (arr K)) : Prop :=
  Forall2 (fun s C => orthonormal (fst s) (snd s) (entries C)) sl Cs.
