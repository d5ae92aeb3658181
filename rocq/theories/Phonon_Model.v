(** Operators of a harmonic oscillator, /repo/minitn/models/particles.py.

    Simplifications.  Numbers are exact: real numbers, and complex numbers as pairs of them.
    Vectors are lists; dtype conversions are left out (an integer vector makes [raising] fail
    in numpy).  [LinearOperator] is the pair of the functions given for [matvec] and [rmatvec]. *)
From Coq Require Import List Arith Bool Reals.
From Verif Require Import Py Alg Cplx NdArray_Model.
Import ListNotations.
Local Open Scope nat_scope.
Local Open Scope py_scope.

Definition rsq (n : nat) : C_star := RtoC (sqrt (INR n)).

(** [np.diag(v, -1)], [np.diag(v, 1)], [np.diag(v)] *)
Definition diag_below (v : list C_star) : arr C_star :=
  build [S (length v); S (length v)] (fun x => rmul (delta (nth 0 x 0) (S (nth 1 x 0))) (nth (nth 1 x 0) v r0)).
Definition diag_above (v : list C_star) : arr C_star :=
  build [S (length v); S (length v)] (fun x => rmul (delta (S (nth 0 x 0)) (nth 1 x 0)) (nth (nth 0 x 0) v r0)).
Definition diag_at (v : list C_star) : arr C_star :=
  build [length v; length v] (fun x => rmul (delta (nth 0 x 0) (nth 1 x 0)) (nth (nth 0 x 0) v r0)).

Definition arr_sub (a b : arr C_star) : res (arr C_star) := arr_add a (arr_scale (ropp r1) b).

Section Phonon.
Variable dim : nat.
Variables omega mass hbar : R.

(** ** Dense: lines 62-68, 70-76, 78-83, 91-96, 104-107, 115-119 *)
Definition creation_dense : arr C_star := diag_below (map rsq (seq 1 (dim - 1))).
Definition annihilation_dense : arr C_star := diag_above (map rsq (seq 1 (dim - 1))).
Definition x_coeff : C_star := RtoC (sqrt (hbar / mass / omega / 2)).
Definition coordinate_dense : res (arr C_star) :=
  let! s := arr_add creation_dense annihilation_dense in Ok (arr_scale x_coeff s).
Definition p_coeff : C_star := rmul C_i (RtoC (sqrt (hbar * mass * omega / 2))).
Definition momentum_dense : res (arr C_star) :=
  let! s := arr_sub creation_dense annihilation_dense in Ok (arr_scale p_coeff s).
Definition number_dense : arr C_star := diag_at (map (fun n => RtoC (INR n)) (seq 0 dim)).
Definition hamiltonian_dense : arr C_star := diag_at (map (fun n => RtoC (hbar * omega * (0.5 + INR n))) (seq 0 dim)).

(** ** Matrix free *)
Definition vec := list C_star.
(** lines 34-38 [check_vec] *)
Definition check_vec (v : vec) : res unit := if length v =? dim then Ok tt else Raise TypeError.
Fixpoint vmul (a b : vec) : vec := match a, b with x :: a, y :: b => rmul x y :: vmul a b | _, _ => [] end.
Fixpoint vadd (a b : vec) : vec := match a, b with x :: a, y :: b => radd x y :: vadd a b | _, _ => [] end.
Definition vscale (c : C_star) (a : vec) : vec := map (rmul c) a.
(** lines 40-45 [raising], 47-52 [lowering] *)
Definition raising (v : vec) : res vec :=
  let! _ := check_vec v in
  Ok (vmul (firstn dim (r0 :: removelast v)) (map rsq (seq 0 dim))).
Definition lowering (v : vec) : res vec :=
  let! _ := check_vec v in
  let tmp := vmul (map rsq (seq 0 dim)) v in
  Ok (firstn dim (tl tmp ++ [r0])).
(** lines 54-60 [operator] *)
Definition lin_op : Type := ((vec -> res vec) * (vec -> res vec))%type.
Definition operator (matvec : vec -> res vec) (rmatvec : option (vec -> res vec)) : lin_op :=
  let r := match rmatvec with None => matvec | Some r => r end in (r, r).
Definition creation_free : lin_op := operator raising (Some lowering).
Definition annihilation_free : lin_op := operator lowering (Some raising).
Definition coordinate_free : lin_op :=
  operator (fun x => let! a := raising x in let! b := lowering x in Ok (vscale x_coeff (vadd a b))) None.
Definition momentum_free : lin_op :=
  operator (fun x => let! a := raising x in let! b := lowering x in Ok (vscale p_coeff (vadd a (vscale (ropp r1) b)))) None.
Definition number_free : lin_op := operator (fun x => let! y := lowering x in raising y) None.
Definition hamiltonian_free : lin_op :=
  operator (fun x => let! y := lowering x in let! z := raising y in Ok (vscale (RtoC (hbar * omega)) (vadd z (vscale (RtoC 0.5) x)))) None.
End Phonon.
