(** Discretising a spectral density: [linear_discretization] of /repo/minitn/models/bath.py,
    the densities of /repo/minitn/heom/corr.py, and the place in
    /repo/minitn/models/spinboson.py that asks for both.

    Simplifications.  Numbers are exact.  [scipy.integrate.quad] is the parameter [quad]
    (first component of its answer, a builtin float, so dividing by zero raises).  A spectral
    density is a total function of real numbers.  [None] stands for nan, the square root of a
    negative float in numpy. *)
From Coq Require Import String List Arith ZArith Bool Reals.
From Verif Require Import Py Alg Cplx NdArray_Model Phonon_Model Spin_Model.
Import ListNotations.
Notation length := Datatypes.length.
Local Open Scope R_scope.
Local Open Scope list_scope.
Local Open Scope py_scope.

(** [np.sqrt] of a float *)
Definition np_sqrt (x : R) : option R := if Rlt_dec x 0 then None else Some (sqrt x).

(** [np.linspace(start, stop, n, endpoint=True)] for n points *)
Definition linspace (start stop : R) (n : nat) : list R :=
  map (fun i => start + INR i * ((stop - start) / INR (n - 1))) (seq 0 n).
(** the same for a count that may be negative *)
Definition linspace_z (start stop : R) (n : Z) : res (list R) :=
  if Z.ltb n 0 then Raise ValueError else Ok (linspace start stop (Z.to_nat n)).

Section Discretise.
Variable quad : (R -> R) -> R -> R -> R.

(** /repo/minitn/models/bath.py:46-50 [direct_quad] *)
Definition direct_quad (spec_func : R -> R) (a b : R) : res (R * option R) :=
  let density := quad spec_func a b in
  let! omega := (if Req_EM_T density 0 then Raise ZeroDivisionError else Ok (quad (fun x => x * spec_func x) a b / density)) in
  let coupling := np_sqrt density in
  Ok (omega, coupling).

(** [list(map(f, l, l'))]: stops at the shorter list and at the first exception *)
Fixpoint map2 {A B C} (f : A -> B -> res C) (l : list A) (l' : list B) : res (list C) :=
  match l, l' with
  | x :: l, y :: l' => let! z := f x y in let! zs := map2 f l l' in Ok (z :: zs)
  | _, _ => Ok []
  end.

(** /repo/minitn/models/bath.py:26-55 [linear_discretization]; [space[:-1]] is [removelast], [space[1:]] is [tl] *)
Definition linear_discretization (spec_func : R -> R) (stop : R) (num : Z) (start : R) : res (list (R * option R)) :=
  let! space := linspace_z start stop (num + 1) in
  map2 (direct_quad spec_func) (removelast space) (tl space).
End Discretise.

(** ** /repo/minitn/heom/corr.py:209-255 [SpectralDensityFactory] *)
(** lines 211-217 *)
Definition drude_lorentz (lambda gamma : R) (w : R) : R := (2 / PI) * (lambda * w * gamma) / (w ^ 2 + gamma ^ 2).
(** lines 219-228 *)
Definition plain (eta omega : R) (w : R) : R := if Rlt_dec 0 w then if Rlt_dec w omega then eta else 0 else 0.
(** lines 230-246 *)
Definition bimodal (lambda_g omega_g lambda_d omega_d : R) (omega : R) : R :=
  let gaussian := (sqrt PI * lambda_g * omega) / (4 * omega_g) * exp (- (omega / (2 * omega_g)) ^ 2) in
  let debye := (lambda_d * omega * omega_d) / (2 * (omega_d ^ 2 + omega ^ 2)) in
  gaussian + debye.
(** lines 248-255 *)
Definition brownian (lambda omega gamma : R) (w : R) : R :=
  4 * lambda * omega ^ 2 * gamma * w / ((w ^ 2 - omega ^ 2) ^ 2 + (2 * gamma * w) ^ 2).

(** ** A model with a bath *)
(** The names bound at the top of /repo/minitn/models/bath.py (lines 13-60) *)
Definition bath_names : list string :=
  ["absolute_import"; "division"; "print_function"; "logging"; "filter"; "map"; "range"; "zip"; "Optional"; "np"; "DTYPE"; "quad"; "__";
   "Correlation"; "linear_discretization"; "generate_BCF"]%string.
(** Reading an attribute of a module *)
Definition module_attr (names : list string) (s : string) : res unit :=
  if existsb (String.eqb s) names then Ok tt else Raise AttributeError.

(** The attributes listed in [OUTER], /repo/minitn/models/spinboson.py:37 *)
Record outer_params := mkOuter { o_stop : R; o_n : Z; o_dim : nat; o_lambda_g : R; o_omega_g : R; o_lambda_d : R; o_omega_d : R }.

Section Bath.
Variable quad : (R -> R) -> R -> R -> R.
(** /repo/minitn/models/spinboson.py:231-239 [outer_hamiltonian] as it stands: [names] are those of the module [bath]; couplings that are nan are kept as zero here *)
Definition outer_terms (names : list string) (o : outer_params) : res (list (list centry)) :=
  let! _ := module_attr names "bimodal_spectral_density" in
  let density := bimodal (o_lambda_g o) (o_omega_g o) (o_lambda_d o) (o_omega_d o) in
  let! _ := module_attr names "linear_discretization" in
  let! zipped := linear_discretization quad density (o_stop o) (o_n o) 0 in
  outer_hamiltonian (map (fun m => (fst m, match snd m with Some g => g | None => 0 end)) zipped) (o_dim o).

(** /repo/minitn/models/spinboson.py:38-69 [SpinBosonModel.__init__]; the outer parameters are [None] if some of the attributes are missing *)
Definition construct (names : list string) (including_bath : bool) (o : option outer_params) (p : spin_params) :=
  let! inner := inner_hamiltonian (sp_omegas p) (sp_lambdas p) (sp_dims p) in
  let! outer := (if including_bath then match o with Some o => outer_terms names o | None => Raise AttributeError end else Ok []) in
  let! relax := (match sp_relax p with Some cs => relaxation_hamiltonian (sp_omegas p) cs (sp_dims p) | None => Ok [] end) in
  collect (td_electron (sp_attr p)) elec_leaf (electron_hamiltonian (sp_e1 p) (sp_e2 p) (sp_v p) ++ inner ++ outer ++ relax) false.
(** /repo/minitn/models/spinboson.py:249-283 [RotSpinBosonModel.__init__]: that of the base class, then the same again on fresh lists *)
Definition construct_rot (names : list string) (including_bath : bool) (o : option outer_params) (p : spin_params) :=
  let! _ := construct names including_bath o p in construct names including_bath o p.
End Bath.
