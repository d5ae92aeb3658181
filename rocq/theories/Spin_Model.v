(** The spin-boson model, /repo/minitn/models/spinboson.py.

    Simplifications.  Numbers are exact; matrix entries are complex numbers as pairs of real
    ones.  Arrays are added only if their shapes agree (no stretching).  The attributes of the
    object are arguments; the frequencies and couplings that [bath.linear_discretization] gives
    for the outer modes are an argument.  The lists of leaves and dimensions are left out. *)
From Coq Require Import String List Arith Bool Reals.
From Verif Require Import Py Alg Cplx NdArray_Model Template_Model Phonon_Model.
Import ListNotations.
Notation length := Datatypes.length.
Local Open Scope nat_scope.
Local Open Scope list_scope.
Local Open Scope py_scope.

(** ** lines 133-154 [collect_electric_terms] *)
Section Collect.
Context {K : StarRing}.
Notation entry := (string * arr K)%type.
(** lines 136-137 *)
Definition condition (elec : string) (t : list entry) : bool :=
  match t with [(l, _)] => String.eqb l elec | _ => false end.
(** [sum(l)] of a list of arrays: the number 0 (here [None]) if there are none *)
Fixpoint sum_from (acc : option (arr K)) (l : list (arr K)) : res (option (arr K)) :=
  match l with
  | [] => Ok acc
  | a :: l =>
      match acc with
      | None => sum_from (Some a) l
      | Some b => let! c := arr_add b a in sum_from (Some c) l
      end
  end.
Definition elec_arrays (elec : string) (hs : list (list entry)) : list (arr K) :=
  map (fun t => match t with (_, a) :: _ => a | [] => mkArr [] [] end) (filter (condition elec) hs).
Definition left_list (elec : string) (hs : list (list entry)) : list (list entry) := filter (fun t => negb (condition elec t)) hs.
(** The entries of the result: arrays, or the number 0 *)
Definition as_value (e : entry) : string * option (arr K) := (fst e, Some (snd e)).
(** [td ti_array] is what [td_electron_hamiltionian] gives: a function of the time, or an exception *)
Definition collect {T F} (td : option (option (arr K)) -> res (T -> F)) (elec : string) (hs : list (list entry)) (absorbed : bool)
  : res (list (list (string * option (arr K))) * option (list (list (string * (T -> F))))) :=
  let! elec_array := sum_from None (elec_arrays elec hs) in
  let left := map (map as_value) (left_list elec hs) in
  let attempt :=
    if absorbed then let! field := td (Some elec_array) in Ok (left, Some [[(elec, field)]])
    else let! field := td None in Ok ([(elec, elec_array)] :: left, Some [[(elec, field)]]) in
  match attempt with
  | Raise AttributeError => Ok ([(elec, elec_array)] :: left, None)
  | r => r
  end.
End Collect.

(** ** The terms *)
Definition mat2 (a b c d : R) : arr C_star := mkArr [2; 2] [RtoC a; RtoC b; RtoC c; RtoC d].
Notation centry := (string * arr C_star)%type.
(** lines 170-183 [electron_hamiltonian] *)
Definition elec_leaf : string := "ELEC".
Definition electron_hamiltonian (e1 e2 v : R) : list (list centry) := [[(elec_leaf, mat2 e1 v v e2)]].
Fixpoint enum {A} (n : nat) (l : list A) : list (nat * A) := match l with [] => [] | x :: l => (n, x) :: enum (S n) l end.
Fixpoint concatM {A B} (f : A -> res (list B)) (l : list A) : res (list B) :=
  match l with [] => Ok [] | x :: l => let! y := f x in let! ys := concatM f l in Ok (y ++ ys) end.
(** lines 204-228 [vibration_hamiltonian] *)
Definition vib_terms (prefix : string) (p : nat * (nat * (R * R))) : res (list (list centry)) :=
  let '(n, (dim, (omega, c))) := p in
  let leaf := (prefix ++ str n)%string in
  let projector := mat2 0 0 0 1 in
  let! q := coordinate_dense dim omega 1 1 in
  Ok [[(leaf, hamiltonian_dense dim omega 1)];
      [(leaf, arr_scale (RtoC (- omega)) q); (elec_leaf, arr_scale (RtoC (2 * (c / omega))) projector)];
      [(elec_leaf, arr_scale (RtoC (2 * (c / omega) ^ 2)) projector)]].
Definition vibration_hamiltonian (omega_list coupling_list : list R) (dim_list : list nat) (prefix : string) : res (list (list centry)) :=
  concatM (vib_terms prefix) (enum 0 (combine dim_list (combine omega_list coupling_list))).
(** lines 230-234 [inner_hamiltonian] *)
Definition inner_couplings (lambda_list omega_list : list R) : res (list R) :=
  if length lambda_list =? length omega_list then Ok (map (fun p => sqrt (fst p / 2) * snd p)%R (combine lambda_list omega_list)) else Raise ValueError.
Definition inner_hamiltonian (omega_list lambda_list : list R) (dim_list : list nat) : res (list (list centry)) :=
  let! cs := inner_couplings lambda_list omega_list in vibration_hamiltonian omega_list cs dim_list "I".
(** lines 236-244 [outer_hamiltonian]: an empty list of modes cannot be unpacked *)
Definition outer_hamiltonian (modes : list (R * R)) (dim : nat) : res (list (list centry)) :=
  match modes with
  | [] => Raise ValueError
  | _ => vibration_hamiltonian (map fst modes) (map snd modes) (repeat dim (length modes)) "O"
  end.
(** lines 185-202 [relaxation_hamiltonian] *)
Definition rel_terms (prefix : string) (p : nat * (nat * (R * R))) : res (list (list centry)) :=
  let '(n, (dim, (omega, c))) := p in
  let leaf := (prefix ++ str n)%string in
  let! q := coordinate_dense dim omega 1 1 in
  Ok [[(leaf, arr_scale (RtoC omega) q); (elec_leaf, arr_scale (RtoC (c / omega)) (mat2 0 1 1 0))]].
Definition relaxation_hamiltonian (omega_list coupling_list : list R) (dim_list : list nat) : res (list (list centry)) :=
  concatM (rel_terms "I") (enum 0 (combine dim_list (combine omega_list coupling_list))).

(** lines 156-168 [td_electron_hamiltionian]: the attributes are read when the field is evaluated *)
Definition attributes := string -> option R.
Definition getattr (at_ : attributes) (s : string) : res R := match at_ s with Some x => Ok x | None => Raise AttributeError end.
Definition field (at_ : attributes) (ti_array : option (option (arr C_star))) (t : R) : res (arr C_star) :=
  let! mu := getattr at_ "mu" in
  let! tau := getattr at_ "tau" in
  let! t_d := getattr at_ "t_d" in
  let! omega := getattr at_ "omega" in
  let delta := (t - t_d)%R in
  let coeff := (exp (- 4 * ln 2 * (delta / tau) ^ 2) * cos (omega * delta))%R in
  let ans := arr_scale (RtoC coeff) (mat2 0 mu mu 0) in
  match ti_array with
  | None => Ok ans
  | Some None => Ok ans
  | Some (Some a) => arr_add ans a
  end.
Definition td_electron (at_ : attributes) (ti_array : option (option (arr C_star))) : res (R -> res (arr C_star)) := Ok (field at_ ti_array).

(** lines 38-69 [__init__] *)
Record spin_params := mkSpin {
  sp_e1 : R; sp_e2 : R; sp_v : R; sp_omegas : list R; sp_lambdas : list R; sp_dims : list nat;
  sp_outer : option (list (R * R) * nat); sp_relax : option (list R); sp_attr : attributes }.
Definition all_terms (p : spin_params) : res (list (list centry)) :=
  let! inner := inner_hamiltonian (sp_omegas p) (sp_lambdas p) (sp_dims p) in
  let! outer := (match sp_outer p with Some (modes, dim) => outer_hamiltonian modes dim | None => Ok [] end) in
  let! relax := (match sp_relax p with Some cs => relaxation_hamiltonian (sp_omegas p) cs (sp_dims p) | None => Ok [] end) in
  Ok (electron_hamiltonian (sp_e1 p) (sp_e2 p) (sp_v p) ++ inner ++ outer ++ relax).
Definition spin_model (p : spin_params) :=
  let! hs := all_terms p in collect (td_electron (sp_attr p)) elec_leaf hs false.
