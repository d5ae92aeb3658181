(** Bath correlation functions: /repo/minitn/heom/corr.py, /repo/minitn/heom/noise.py and
    [generate_BCF] of /repo/minitn/models/bath.py.

    Simplifications.  Numbers are exact: real numbers, and complex numbers as pairs of them.
    Division by zero and roots of negative numbers, which give inf or nan in numpy, have some
    unspecified value here; theorems exclude them where it matters.  Printing and dtype
    conversions are left out. *)
From Coq Require Import List Arith ZArith Reals.
From Verif Require Import Py Alg Cplx.
Import ListNotations.
Local Open Scope py_scope.

(** /repo/minitn/heom/corr.py:20-43 [Correlation.__init__] *)
Record correlation := mkCorr {
  c_kmax : option Z; c_beta : option R;
  c_coeff : option (list C_star); c_conj_coeff : option (list C_star); c_derivative : option (list C_star) }.

Section Drude.
Local Open Scope R_scope.

(** [[x] * n] *)
Definition times_list {A} (x : A) (n : Z) : list A := repeat x (Z.to_nat n).

(** /repo/minitn/heom/corr.py:78-79 [f_bose], on complex numbers *)
Definition f_bose (x : C_star) : C_star := Cinv (rsub (s := C_star) r1 (Cexp (ropp (s := C_star) x))).

(** /repo/minitn/heom/corr.py:101-106 [matsubara] *)
Definition matsubara (n : nat) : list R * list R :=
  (map (fun i => 2 * (INR i + 1) * PI) (seq 0 n), repeat 1 n).

(** /repo/minitn/heom/corr.py:108-152 [pade]: [eig] gives the eigenvalues, in falling order, of
    the symmetric tridiagonal matrix with zero diagonal and the given subdiagonal. *)
Variable eig : list R -> list R.
Definition poles_of (a n m : nat) : list R :=
  map (fun x => 2 / x) (firstn n (eig (map (fun i => 1 / sqrt (INR ((a + 2 * i) * (a + 2 + 2 * i)))) (seq 0 m)))).
Definition residue (n : nat) (roots_p roots_q : list R) (i : nat) : R :=
  let p j := nth j roots_p 0 in
  let q j := nth j roots_q 0 in
  let res_i := 0.5 * INR n * (2 * INR n + 3) in
  let res_i := if (i <? n - 1)%nat then res_i * ((p i - q i) / (q (n - 1)%nat - q i)) else res_i in
  fold_left (fun r j => if (j =? i)%nat then r else r * ((p j - q i) / (q j - q i))) (seq 0 (n - 1)) res_i.
Definition pade (n : nat) : list R * list R :=
  match n with
  | O => ([], [])
  | _ =>
      let poles := poles_of 3 n (2 * n - 1) in
      let roots_q := map (fun x => x * x) poles in
      let roots_p := map (fun x => x * x) (poles_of 5 (n - 1) (2 * n - 2)) in
      (poles, map (residue n roots_p roots_q) (seq 0 n))
  end.

(** /repo/minitn/heom/corr.py:57-99 [Drude.__init__]; [decomp] is [decompmethod] *)
Definition drude (gamma lambda : R) (k_max : Z) (beta : option R) (decomp : nat -> list R * list R) : res correlation :=
  if (k_max <? 0)%Z then Raise AssertionError else
  let cg :=
    if (k_max =? 0)%Z then ([], []) else
    match beta with
    | None => (rmul (ropp C_i) (RtoC (gamma * lambda)) :: times_list r0 (k_max - 1), RtoC (- gamma) :: times_list r0 (k_max - 1))
    | Some b =>
        let '(poles, residues) := decomp (Z.to_nat (k_max - 1)) in
        let prs := combine poles residues in
        (rmul (rmul (ropp C_i) (RtoC (2 * lambda * gamma))) (f_bose (rmul (ropp C_i) (RtoC (gamma * b))))
           :: map (fun pr => RtoC (-4 * (fst pr / b) * (snd pr / b) * gamma * lambda / (gamma ^ 2 - (fst pr / b) ^ 2))) prs,
         RtoC (- gamma) :: map (fun pr => RtoC (- fst pr / b)) prs)
    end in
  Ok (mkCorr (Some k_max) beta (Some (fst cg)) (Some (map rconj (fst cg))) (Some (snd cg))).

(** ** /repo/minitn/heom/corr.py:246-254 [brownian]: the spectral density *)
Definition brownian_density (lambda omega gamma w : R) : R :=
  4 * lambda * omega ^ 2 * gamma * w / ((w ^ 2 - omega ^ 2) ^ 2 + (2 * gamma * w) ^ 2).
(** [1.0 / np.tanh(x)] *)
Definition Ctanh (x : C_star) : C_star :=
  rmul (rsub (Cexp x) (Cexp (ropp x))) (Cinv (radd (Cexp x) (Cexp (ropp x)))).
Definition Ccoth (x : C_star) : C_star := Cinv (Ctanh x).
(** /repo/minitn/heom/corr.py:160-201 [Brownian.__init__] *)
Definition brownian (lambda omega gamma : R) (k_max : Z) (beta : option R) : correlation :=
  let w1 := sqrt (omega ^ 2 - gamma ^ 2) in
  let coth1 : C_star := match beta with None => r1 | Some b => Ccoth (RtoC (b / 2) * (RtoC w1 - C_i * RtoC gamma))%S end in
  let coth2 : C_star := match beta with None => r1 | Some b => Ccoth (RtoC (b / 2) * (RtoC w1 + C_i * RtoC gamma))%S end in
  let pre : C_star := RtoC (lambda * omega ^ 2 / (2 * w1)) in
  let ks := match beta with None => [] | Some _ => if (1 <? k_max)%Z then seq 1 (Z.to_nat (k_max - 1)) else [] end in
  let b := match beta with None => 0 | Some b => b end in
  let v k := 2 * PI * INR k / b in
  let d k := RtoC (-2 * brownian_density lambda omega gamma (v k) / b) in
  mkCorr (Some (k_max + 2)%Z) beta
    (Some ([pre * (coth1 + r1); pre * (coth2 - r1)]%S ++ map d ks))
    (Some ([pre * (rconj coth2 - r1); pre * (rconj coth1 + r1)]%S ++ map d ks))
    (Some ([RtoC (- gamma) - C_i * RtoC w1; RtoC (- gamma) + C_i * RtoC w1]%S ++ map (fun k => RtoC (- v k)) ks)).
End Drude.

(** ** /repo/minitn/models/bath.py:60-95 [generate_BCF] *)
Section Modes.
Local Open Scope R_scope.
Definition temp_factor (beta : option R) (omega : R) : R := match beta with None => 1 | Some b => 1 / tanh (b * omega / 2) end.
(** [list(x)] of an attribute that may be None *)
Definition as_list {A} (x : option (list A)) : res (list A) := match x with Some l => Ok l | None => Raise TypeError end.
Definition generate_BCF (ph : list (R * R)) (bath : option correlation) (beta : option R) : res correlation :=
  let f := temp_factor beta in
  let coeff := flat_map (fun p => [RtoC (snd p ^ 2 / 2 * (f (fst p) + 1)); RtoC (snd p ^ 2 / 2 * (f (fst p) - 1))]) ph in
  let conj_coeff := flat_map (fun p => [RtoC (snd p ^ 2 / 2 * (f (fst p) - 1)); RtoC (snd p ^ 2 / 2 * (f (fst p) + 1))]) ph in
  let derivative := flat_map (fun p => [ropp C_i * RtoC (fst p); C_i * RtoC (fst p)]%S) ph in
  let! l := (match bath with
             | None => Ok ([], [], [])
             | Some b => let! c := as_list (c_coeff b) in let! cc := as_list (c_conj_coeff b) in let! d := as_list (c_derivative b) in Ok (c, cc, d)
             end) in
  let '(c, cc, d) := l in
  let coeff := coeff ++ c in
  Ok (mkCorr (Some (Z.of_nat (length coeff))) beta (Some coeff) (Some (conj_coeff ++ cc)) (Some (derivative ++ d))).
End Modes.

(** ** /repo/minitn/heom/noise.py:20-111: the other [Drude], with hbar = 1 *)
Section Noise.
Local Open Scope R_scope.
(** noise.py:24-28 [SpectrumFactory.drude] *)
Definition noise_spectrum (lambda omega_0 omega : R) : R := 2 * lambda * (omega * omega_0) / (omega ^ 2 + omega_0 ^ 2).
(** noise.py:77-89 [exp_coeff], 91-102 [symm_coeff], 104-114 [asymm_coeff] *)
Definition noise_exp (omega_0 beta : R) (k : nat) : R := match k with O => omega_0 | _ => 2 * PI * INR k / beta end.
Definition noise_symm (lambda omega_0 beta : R) (k : nat) : R :=
  match k with O => omega_0 * lambda / tan (beta * omega_0 / 2) | _ => 2 * noise_spectrum lambda omega_0 (noise_exp omega_0 beta k) / beta end.
Definition noise_asymm (lambda omega_0 : R) (k : nat) : R := match k with O => - omega_0 * lambda | _ => 0 end.
(** The terms [c_k] built in /repo/minitn/heom/eom2.py:114 *)
Definition noise_coeff (lambda omega_0 beta : R) (k : nat) : C_star :=
  radd (RtoC (noise_symm lambda omega_0 beta k)) (rmul C_i (RtoC (noise_asymm lambda omega_0 k))).
End Noise.
