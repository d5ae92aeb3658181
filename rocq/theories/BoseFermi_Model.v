(** Decompositions of the Bose and Fermi functions: /repo/minitn/heom/bosefermi.py.

    Simplifications.  Numbers are exact reals; division by zero and roots of negative numbers
    have some unspecified value.  [np.linalg.eigvalsh] is a given function of the number of rows
    and the entries; theorems assume that it returns the eigenvalues, in any order.  An index
    outside a list, which the sizes exclude, would read 0.  The scheme [pade=3] (lines 67-106) is
    not modelled: the exception of [psd] in that case stands for it, the code returns a result. *)
From Coq Require Import List Arith ZArith Reals.
From Verif Require Import Py.
Import ListNotations.
Local Open Scope R_scope.

(** [np.sort] *)
Fixpoint insert (x : R) (l : list R) : list R :=
  match l with [] => [x] | y :: l' => if Rle_dec x y then x :: l else y :: insert x l' end.
Definition sort (l : list R) : list R := fold_right insert [] l.

Section BoseFermi.
Variable eigvalsh : nat -> (nat -> nat -> R) -> list R.

(** lines 8-10 [tseig]; [np.diag(E, -1) + np.diag(D, 0) + np.diag(E, 1)] *)
Definition tri (D E : list R) (i j : nat) : R :=
  (if (i =? S j)%nat then nth j E 0 else 0) + (if (i =? j)%nat then nth i D 0 else 0) + (if (j =? S i)%nat then nth i E 0 else 0).
Definition tseig (D E : list R) : list R := map Ropp (sort (map Ropp (eigvalsh (length D) (tri D E)))).

(** lines 13-23 [MSD] *)
Definition msd (N : Z) (BoseFermi : Z) : res (list R * list R * R * R) :=
  if negb ((0 <=? N) && ((BoseFermi =? 1) || (BoseFermi =? 2)))%Z%bool then Raise AssertionError else
  let n := Z.to_nat N in
  if (BoseFermi =? 1)%Z then Ok (map (fun i => 2 * INR (i + 1) * PI) (seq 0 n), repeat 1 n, 0, 0)
  else Ok (map (fun i => (2 * INR i + 1) * PI) (seq 0 n), repeat 1 n, 0, 0).

(** lines 37-39 and 42-45: the tridiagonal matrix of [M] rows and [2.0 / tseig(diag, doff)[:n]] *)
Definition inverses (temp : R) (M n : nat) : list R :=
  let diag := repeat 0 M in
  let doff := map (fun i => 1 / sqrt ((temp + 2 * INR i) * (temp + 2 * INR (i + 1)))) (seq 0 (M - 1)) in
  map (fun x => 2 / x) (firstn n (tseig diag doff)).

(** lines 55-64: the residue of pole [j] *)
Definition resi_at (pade : Z) (N M : nat) (scaling : R) (eig2 pol2 : list R) (j : nat) : R :=
  let e k := nth k eig2 0 in
  let p k := nth k pol2 0 in
  let temp :=
    if (pade =? 2)%Z then 0.5 * scaling * (e j - p j)
    else if (j =? N - 1)%nat then 0.5 * scaling
    else 0.5 * scaling * (e j - p j) / (p (N - 1)%nat - p j) in
  fold_left (fun temp k => temp * (if negb (k =? j)%nat then (e k - p j) / (p k - p j) else 1)) (seq 0 M) temp.

(** lines 26-66 [PSD] for [pade] 0, 1 and 2 *)
Definition psd (N BoseFermi pade : Z) : res (list R * list R * R * R) :=
  if negb ((0 <=? N) && ((BoseFermi =? 1) || (BoseFermi =? 2)) && ((pade =? 0) || (pade =? 1) || (pade =? 2) || (pade =? 3)))%Z%bool then Raise AssertionError else
  if (pade =? 0)%Z then msd N BoseFermi else
  if (pade =? 3)%Z then Raise NotImplementedError (* not modelled *) else
  let n := Z.to_nat N in
  let bose := (BoseFermi =? 1)%Z in
  let '(pole, resi) :=
    if (0 <? N)%Z then
      let M := (2 * n + Z.to_nat (pade / 2))%nat in
      let pole := inverses (if bose then 3 else 1) M n in
      let pol2 := map (fun x => x * x) pole in
      let M := (M - 1)%nat in
      let eig2 := map (fun x => x ^ 2) (inverses (if bose then 5 else 3) M (M / 2)) in
      let scaling :=
        if bose then (if (pade =? 1)%Z then INR n * (2 * INR n + 3) else 1 / (4 * (INR n + 1) * (2 * INR n + 3)))
        else (if (pade =? 1)%Z then INR n * (2 * INR n + 1) else 1 / (4 * (INR n + 1) * (2 * INR n + 1))) in
      (pole, map (resi_at pade n (M / 2) scaling eig2 pol2) (seq 0 n))
    else ([], []) in
  let rn := if (bose && (pade =? 2)%Z)%bool then 1 / (4 * (INR n + 1) * (2 * INR n + 3)) else 0 in
  Ok (pole, resi, rn, 0).
End BoseFermi.
