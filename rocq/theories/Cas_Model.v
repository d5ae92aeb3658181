(** Matrix representations by computer algebra, /repo/minitn/lib/symbolic.py, and the
    representation built on them, [CasDVR] of /repo/minitn/bases/dvr.py.

    Simplifications.  Numbers are exact.  An expression in [x] is the function it stands for; a
    basis function is the expression it gives for [x].  [sym.integrate(...).evalf()] is [sym_int]
    ([None] for the whole line), [quadrature] is [quad], [sym.diff] is [sym_diff] and
    [scipy.linalg.eigh] is [eigh].  [lambdify] gives the function of an expression. *)
From Coq Require Import List Arith Bool Reals.
From Verif Require Import Py Alg Ord NdArray_Model Dvr_Model.
Import ListNotations.
Local Open Scope R_scope.
Local Open Scope py_scope.

Notation expr := (R -> R).
(** symbolic.py:21-27 [BasisFunction.particle_in_box] *)
Definition sym_particle_in_box (k : nat) (L x0 y : R) : R := sqrt (2 / L) * sin (INR k * PI * (y - x0) / L).
(** symbolic.py:54-57 [id_op], 60-63 [prod_op] *)
Definition id_op (y : R) : R := y.
Definition prod_op (m : expr) (y : expr) : expr := fun x => m x * y x.

(** [A[i, j] = v] *)
Definition put (A : arr R_star) (i j : nat) (v : R) : arr R_star :=
  build (K := R_star) (shape A) (fun x => if ((nth 0 x O =? i)%nat && (nth 1 x O =? j)%nat)%bool then v else get A x).

Section Cas.
Variable sym_int : expr -> option (R * R) -> R.
Variable quad : expr -> R -> R -> nat -> R.
(** symbolic.py:73-88 [matrix_element]; [if num_prec is None] *)
Definition matrix_element (i : expr) (op : expr -> expr) (j : expr) (cut_off : option (R * R)) (num_prec : option nat) : R :=
  let prod := fun x => i x * op j x in
  match num_prec with
  | None => sym_int prod cut_off
  | Some p => let '(a, b) := match cut_off with Some c => c | None => (- 10000, 10000) end in quad prod a b p
  end.

Definition at_ (basis : list expr) (i : nat) : expr := nth i basis (fun _ => 0).
(** symbolic.py:91-104 [matrix_repr], the loop over [j] and the loop over [i] *)
Fixpoint row_loop (op : expr -> expr) (basis : list expr) cut_off num_prec (i : nat) (js : list nat) (A : arr R_star) : arr R_star :=
  match js with
  | [] => A
  | j :: js =>
      let mel := matrix_element (at_ basis i) op (at_ basis j) cut_off num_prec in
      row_loop op basis cut_off num_prec i js (put (put A i j mel) j i mel)
  end.
Fixpoint rows_loop (op : expr -> expr) (basis : list expr) cut_off num_prec (is : list nat) (A : arr R_star) : arr R_star :=
  match is with
  | [] => A
  | i :: is => rows_loop op basis cut_off num_prec is (row_loop op basis cut_off num_prec i (seq 0 (i + 1)) A)
  end.
Definition matrix_repr (op : expr -> expr) (basis : list expr) cut_off num_prec : arr R_star :=
  let n_dims := length basis in
  rows_loop op basis cut_off num_prec (seq 0 n_dims) (zeros (K := R_star) [n_dims; n_dims]).

(** dvr.py:190-201 [dvr2fbr_mat], 203-214 [dvr2fbr_vec], 245-256 [fbr2dvr_mat], 258-270
    [fbr2dvr_vec] for any matrix [_u_mat] *)
Definition to_fbr_mat (u mat : arr R_star) : res (arr R_star) := let! y := matmul mat (mat_T u) in matmul u y.
Definition to_dvr_mat (u mat : arr R_star) : res (arr R_star) := let! y := matmul mat u in matmul (mat_T u) y.
Definition to_fbr_vec (u : arr R_star) (vec : rvec) : res rvec := mat_vec u vec.
Definition to_dvr_vec (u : arr R_star) (vec : rvec) : res rvec := mat_vec (mat_T u) vec.
(** dvr.py:272-291 [fbr2cont], 216-229 [dvr2cont] with the basis functions *)
Fixpoint cont_loop (basis : list expr) (vec : rvec) (x : R) (js : list nat) (psi : R) : res R :=
  match js with
  | [] => Ok psi
  | j :: js => match nth_error vec j with None => Raise IndexError | Some c => cont_loop basis vec x js (psi + at_ basis j x * c) end
  end.
Definition cas_fbr2cont (basis : list expr) (vec : rvec) (x : R) : res R := cont_loop basis vec x (seq 0 (length basis)) 0.
Definition cas_dvr2cont (u : arr R_star) (basis : list expr) (vec : rvec) (x : R) : res R :=
  let! f := to_fbr_vec u vec in cas_fbr2cont basis f x.

Variable sym_diff : nat -> expr -> expr.
Variable eigh : arr R_star -> rvec * arr R_star.
Variables (basis : list expr) (cut_off : option (R * R)) (trans inv : option expr) (num_prec : option nat) (hbar m_e : R).
(** dvr.py:514-528 [_sym_calc_q_mat] *)
Definition cas_q_fbr : arr R_star :=
  let f := match trans with Some f => f | None => id_op end in
  matrix_repr (prod_op f) basis cut_off num_prec.
(** dvr.py:530-541 [_sym_calc_grid_points], [_calculate_dvr]; [inv] acts on an array elementwise *)
Definition cas_u : arr R_star := snd (eigh cas_q_fbr).
Definition cas_grid : rvec := map (match inv with Some f => f | None => id_op end) (fst (eigh cas_q_fbr)).
(** dvr.py:543-558 [t_mat] *)
Definition cas_t_mat : res (arr R_star) :=
  let factor := - hbar ^ 2 / (2 * m_e) in
  let! t := to_dvr_mat cas_u (matrix_repr (sym_diff 2) basis cut_off num_prec) in
  Ok (arr_scale (K := R_star) factor t).
(** dvr.py:123-134 [v_mat], 146-156 [h_mat] *)
Definition cas_h_mat (v_func : R -> R) : res (arr R_star) :=
  let! t := cas_t_mat in arr_add t (np_diag (K := R_star) (map v_func cas_grid)).
End Cas.
