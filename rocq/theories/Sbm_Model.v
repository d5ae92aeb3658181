(** The model of /repo/minitn/models/sbm.py: a system, oscillators and a bath.

    Simplifications.  Numbers are exact.  [h], [op] are arrays; the frequency and the coupling of an oscillator are real
    numbers, [zip] stops with the shortest list.  A leaf is a value of any type.  [dense_h] is in
    SbmDense_Model.v. *)
From Coq Require Import List Arith Bool ZArith Reals.
From Verif Require Import Py Alg ListX Cplx NdArray_Model Phonon_Model Corr_Model Heom_Model.
Import ListNotations.
Local Open Scope nat_scope.
Local Open Scope py_scope.

Section Sbm.
Variables h op : arr C_star.
(** [self.ph_parameters], [self.ph_dims] *)
Variable ph_parameters : list (R * R).
Variable ph_dims : list nat.

Section Leaves.
Context {L : Type}.
(** /repo/minitn/models/sbm.py:58-65, 77-84 and 86-93: the two terms of one oscillator; [c] is -1j or 1j.  [Phonon(d, omega)] has mass and
    hbar 1. *)
Definition mode_terms (c : C_star) (sys : L) (p : L * ((R * R) * nat)) : res (list (list (L * arr C_star))) :=
  let '(ph, ((omega, g), d)) := p in
  let! o := arr_add (annihilation_dense d) (creation_dense d) in
  Ok [ [(ph, arr_scale c (hamiltonian_dense d omega 1))]; [(ph, arr_scale (RtoC g) o); (sys, arr_scale c op)] ].
(** the loops over [zip(ph_indices, self.ph_parameters, self.ph_dims)] *)
Definition all_modes (c : C_star) (sys : L) (phs : list L) : res (list (list (L * arr C_star))) :=
  let! l := map_res (mode_terms c sys) (combine phs (combine ph_parameters ph_dims)) in Ok (concat l).

(** /repo/minitn/models/sbm.py:54-67 [wfn_h_list] *)
Definition wfn_h_list (sys : L) (phs : list L) : res (list (list (L * arr C_star))) :=
  let! l := all_modes (- C_i)%S sys phs in Ok ([(sys, arr_scale (- C_i)%S h)] :: l).

(** /repo/minitn/models/sbm.py:69-95 [do_l_list] *)
Definition do_l_list (sys_i sys_j : L) (ph_is ph_js : list L) : res (list (list (L * arr C_star))) :=
  let! li := all_modes (- C_i)%S sys_i ph_is in
  let! lj := all_modes C_i sys_j ph_js in
  Ok ([ [(sys_i, arr_scale (- C_i)%S h)]; [(sys_j, arr_scale C_i h)] ] ++ li ++ lj).

(** /repo/minitn/models/sbm.py:97-116 [heom_h_list] with [basis=None]; [bath] is [self.bath_corr] ([None] for an empty list),
    [bath_dims] is [self.bath_dims]; [Hierachy(...)] and its [h_list] are those of Heom_Model.v.
    [np.repeat(self.ph_dims, 2)] doubles every entry. *)
Definition heom_h_list (bath : option correlation) (bath_dims : list nat) (sys_i sys_j : L) (bath_indices : list L) (beta : option R) (scale : R)
  : res (list (list (L * arr C_star))) :=
  let! corr := generate_BCF ph_parameters bath beta in
  let n_tiers := flat_map (fun d => [d; d]) ph_dims ++ bath_dims in
  match c_kmax corr, c_coeff corr, c_conj_coeff corr, c_derivative corr with
  | Some k, Some c, Some cc, Some der =>
      let! _ := init C_star n_tiers h op (Z.to_nat k) in
      h_list C_star C_i rsq n_tiers h op der c cc (RtoC scale) (RtoC (/ scale)) sys_i sys_j bath_indices
  | _, _, _, _ => Raise TypeError
  end.
(** /repo/minitn/models/sbm.py:118-129 [heom_h_list2]; the attribute [diff_type] is read nowhere *)
Definition heom_h_list2 (bath : option correlation) (bath_dims : list nat) (sys_i sys_j : L) (bath_indices : list L) (beta : option R) :=
  heom_h_list bath bath_dims sys_i sys_j bath_indices beta 1.
End Leaves.
End Sbm.
