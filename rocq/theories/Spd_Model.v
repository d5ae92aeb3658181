(** The model of /repo/minitn/heom/spd.py.

    Simplifications.  Numbers are exact; [w] of [Drude.spectral_density] and of [BoseEinstein.function] is one real number, and
    division by zero there, nan or inf in numpy, has some unspecified value.  [str.lower] is that of ASCII.
    Values are tagged with their Python type where an operator depends on it. *)
From Coq Require Import List ZArith Reals String Ascii.
From Verif Require Import Py Alg Cplx.
Import ListNotations.
Local Open Scope py_scope.
Local Open Scope R_scope.

(** spd.py:27-33 [BoseEinstein.__init__] *)
Definition init (beta : option R) : res (option R) :=
  match beta with Some b => if Rle_dec 0 b then Ok (Some b) else Raise AssertionError | None => Ok None end.
(** spd.py:35-40 [BoseEinstein.function] *)
Definition function (beta : option R) (w : R) : R := match beta with None => 1 | Some b => 1 / (1 - exp (- b * w)) end.

(** spd.py:61-63 [BoseEinstein.matsubara] *)
Definition matsubara (n : Z) : list (R * R) := map (fun i => (1, 2 * PI * INR (i + 1))) (seq 0 (Z.to_nat n)).
(** Python values: a float, a list of floats, a numpy array of floats, a function *)
Inductive val := num (x : R) | lst (l : list R) | arr (l : list R) | func.
(** [x / v] for a float [x] *)
Definition float_div (x : R) (v : val) : res val :=
  match v with num y => Ok (num (x / y)) | arr l => Ok (arr (map (fun y => x / y) l)) | lst _ | func => Raise TypeError end.
(** [np.power(v, 2)], an array of a list too *)
Definition np_square (v : val) : res val :=
  match v with num y => Ok (num (y ^ 2)) | arr l | lst l => Ok (arr (map (fun y => y ^ 2) l)) | func => Raise TypeError end.
(** [v ** 2] *)
Definition square (v : val) : res val :=
  match v with num y => Ok (num (y ^ 2)) | arr l => Ok (arr (map (fun y => y ^ 2) l)) | lst _ | func => Raise TypeError end.
(** [v[:n]] *)
Definition slice (n : nat) (v : val) : res val :=
  match v with lst l => Ok (lst (firstn n l)) | arr l => Ok (arr (firstn n l)) | num _ | func => Raise TypeError end.
(** the numbers in a value that can be iterated over *)
Definition items (v : val) : res (list R) := match v with lst l | arr l => Ok l | num _ | func => Raise TypeError end.

Section Pade.
(** [sorted(np.linalg.eigvalsh(mat), reverse=True)] of the symmetric matrix with [subdiag] beside the diagonal; [sorted] returns a
    list *)
Variable eigenvalues : list R -> list R.
(** spd.py:20-22 [_eigvalsh] *)
Definition eigvalsh (subdiag : list R) : val := lst (eigenvalues subdiag).
(** spd.py:70-79 and 98-105: the roots, from the matrix of [rows - 1] entries beside the diagonal starting with [a] *)
Definition inverses (a rows n : nat) : res val :=
  let! e := slice n (eigvalsh (map (fun i => 1 / sqrt (INR ((2 * i + a) * (2 * i + a + 2)))) (seq 0 (rows - 1)))) in float_div 2 e.
(** spd.py:81-89 and 107-114: the residues (in [pade2] the factors come in turn) *)
Definition residue_at (c : R) (roots_p roots_q : list R) (i : nat) : R :=
  fold_left (fun r j => if (j =? i)%nat then r else r / (nth j roots_q 0 - nth i roots_q 0)) (seq 0 (List.length roots_q))
    (fold_left (fun r p => r * (p - nth i roots_q 0)) roots_p c).
Definition pade_with (c : R) (a rows n rows' n' : nat) : res (list R * list R) :=
  let! zetas := inverses a rows n in
  let! roots_q := np_square zetas in
  let! p := inverses (a + 2) rows' n' in
  let! roots_p := np_square p in
  let! q := items roots_q in
  let! p := items roots_p in
  let! z := items zetas in
  Ok (map (residue_at c p q) (seq 0 n), z).
(** spd.py:65-91 [pade1], 93-116 [pade2] *)
Definition pade1 (n : Z) : res (list R * list R) :=
  if (n >? 0)%Z then let k := Z.to_nat n in pade_with (1 / 2 * INR k * (2 * INR k + 3)) 3 (2 * k) k (2 * k - 1) (k - 1) else Raise AssertionError.
Definition pade2 (n : Z) : res (list R * list R) :=
  if (n >? 0)%Z then let k := Z.to_nat n in pade_with (1 / 2 / (4 * (INR k + 1) * (2 * INR k + 3))) 3 (2 * k + 1) k (2 * k + 1) k else Raise AssertionError.

(** [str.lower] *)
Definition lower_ascii (c : ascii) : ascii :=
  let k := nat_of_ascii c in if (andb (65 <=? k) (k <=? 90))%nat then ascii_of_nat (k + 32) else c.
Fixpoint lower (s : string) : string := match s with EmptyString => EmptyString | String c s => String (lower_ascii c) (lower s) end.

(** spd.py:56 [residues, zetas = method(n)]: a list of pairs is unpacked into two names *)
Definition unpack (l : list (R * R)) : res ((R * R) * (R * R)) := match l with [a; b] => Ok (a, b) | _ => Raise ValueError end.
(** spd.py:57-59, [zip] of two tuples *)
Definition scaled (b : R) (rz : list (R * R)) : res (list (C_star * C_star)) :=
  match rz with
  | [] => Ok []
  | _ => if Req_EM_T b 0 then Raise ZeroDivisionError else
         Ok (map (fun q => (RtoC (fst q / b), ropp C_i * RtoC (snd q / b))%S) rz ++ map (fun q => (RtoC (fst q / b), C_i * RtoC (snd q / b))%S) rz)
  end.

(** spd.py:42-59 [BoseEinstein.residues] *)
Definition residues (beta : option R) (n : Z) (decomp_method : string) : res (list (C_star * C_star)) :=
  let m := lower decomp_method in
  if (m =? "pade")%string then
    if (n <? 0)%Z then Raise AssertionError else
    match beta with
    | None => Ok []
    | Some b => if (n =? 0)%Z then Ok [] else let! rz := pade1 n in scaled b (combine (fst rz) (snd rz))
    end
  else if (m =? "matsubara")%string then
    if (n <? 0)%Z then Raise AssertionError else
    match beta with
    | None => Ok []
    | Some b => if (n =? 0)%Z then Ok [] else
        let! ab := unpack (matsubara n) in
        let '((x, y), (x', y')) := ab in scaled b [(x, x'); (y, y')]
    end
  else Raise NotImplementedError.

End Pade.

(** spd.py:139-142 [Drude.spectral_density], 144-147 [Drude.residues] *)
Definition drude_density (lambda gamma w : R) : R := 2 / PI * lambda * gamma * w / (w ^ 2 + gamma ^ 2).
Definition drude_residues (lambda gamma : R) : list (C_star * C_star) :=
  [(RtoC (lambda * gamma / PI), ropp C_i * RtoC gamma); (RtoC (lambda * gamma / PI), C_i * RtoC gamma)]%S.

(** spd.py:9: the name [gamma] of the module is [math.gamma], a function; the methods below use it where the attribute is meant *)
Definition module_gamma : val := func.
(** [w0**2 + gamma**2] *)
Definition squares (omega_0 : R) (gamma : val) : res R := let! g := square gamma in match g with num x => Ok (omega_0 ^ 2 + x) | _ => Raise TypeError end.
(** spd.py:159-165 [Brownian.spectral_density], 167-177 [Brownian.residues] *)
Definition brownian_density (lambda g omega_0 w : R) : res R :=
  let! s := squares omega_0 module_gamma in
  Ok (4 / PI * lambda * g * s * w / ((w - omega_0) ^ 2 + g ^ 2) / ((w + omega_0) ^ 2 + g ^ 2)).
Definition brownian_residues (lambda g omega_0 : R) : res (list (C_star * C_star)) :=
  let! s := squares omega_0 module_gamma in
  let r := RtoC (lambda * g * s / (PI * omega_0)) in
  Ok [(r, ropp C_i * (RtoC g + C_i * RtoC omega_0)); (r, ropp C_i * (RtoC g - C_i * RtoC omega_0));
      (r, C_i * (RtoC g + C_i * RtoC omega_0)); (r, C_i * (RtoC g - C_i * RtoC omega_0))]%S.
