(** One-dimensional discrete variable representation with sine functions,
    /repo/minitn/bases/dvr.py.

    Simplifications.  Numbers are exact real numbers.  Vectors are lists ([shape (n,)]); the
    potential [v_func] acts on every grid point by itself.  Plotting is left out. *)
From Coq Require Import List Arith Bool Reals.
From Verif Require Import Py Alg Ord Cplx NdArray_Model.
Import ListNotations.
Local Open Scope nat_scope.
Local Open Scope py_scope.

Notation rvec := (list R_star).

(** [np.dot(m, v)] for a matrix and a vector *)
Definition mat_vec {K : StarRing} (m : arr K) (v : list K) : res (list K) :=
  match shape m with
  | [p; q] => if length v =? q then Ok (map (fun i => sumn q (fun k => rmul (get m [i; k]) (nth k v r0))) (seq 0 p)) else Raise ValueError
  | _ => Raise ValueError
  end.
(** [np.diag(v)] *)
Definition np_diag {K : StarRing} (v : list K) : arr K :=
  build [length v; length v] (fun x => rmul (delta (nth 0 x 0) (nth 1 x 0)) (nth (nth 0 x 0) v r0)).

(** /repo/minitn/lib/numerical.py:46-55 [BasisFunction.particle_in_box], at one point *)
Definition particle_in_box (j : nat) (L x0 x : R) : R :=
  if Rlt_dec x0 x then if Rlt_dec x (x0 + L) then sqrt (2 / L) * sin (INR j * PI * (x - x0) / L) else 0 else 0.

Section Sine.
Local Open Scope R_scope.
(** dvr.py lines 608-614 [SineDVR.__init__] *)
Variables a b : R.
Variable n : nat.
Variables hbar m_e : R.
Definition len : R := b - a.

(** dvr.py lines 616-626 [_calculate_dvr] *)
Definition grid_points : list R := map (fun i => a + len / (INR n + 1) * INR i) (seq 1 n).
Definition u_mat : arr R_star :=
  build (K := R_star) [n; n] (fun x => sqrt (2 / (INR n + 1)) * sin (INR (S (nth 0 x O)) * INR (S (nth 1 x O)) * PI / (INR n + 1))).

(** dvr.py lines 190-201 [dvr2fbr_mat], 203-214 [dvr2fbr_vec], 245-256 [fbr2dvr_mat], 258-270 [fbr2dvr_vec] *)
Definition dvr2fbr_mat (mat : arr R_star) : res (arr R_star) := let! y := matmul mat (mat_T u_mat) in matmul u_mat y.
Definition fbr2dvr_mat (mat : arr R_star) : res (arr R_star) := let! y := matmul mat u_mat in matmul (mat_T u_mat) y.
Definition dvr2fbr_vec (vec : rvec) : res rvec := mat_vec u_mat vec.
Definition fbr2dvr_vec (vec : rvec) : res rvec := mat_vec (mat_T u_mat) vec.

(** dvr.py lines 117-118 [q_mat] *)
Definition q_mat : arr R_star := np_diag (K := R_star) grid_points.

(** dvr.py lines 628-638 [dq_mat]: the matrix between sine functions, with [(j + k) % 2] for
    [(j - k) % 2], and the loop clearing the diagonal *)
Definition dq_fbr : arr R_star :=
  build (K := R_star) [n; n] (fun x =>
    let j := INR (S (nth 0 x O)) in let k := INR (S (nth 1 x O)) in
    if (nth 0 x O =? nth 1 x O)%nat then 0
    else INR ((nth 0 x O + nth 1 x O) mod 2) * 4 * j * k / (j ^ 2 - k ^ 2) / len).
Definition clear_diag (m : arr R_star) : arr R_star :=
  build (K := R_star) (shape m) (fun x => if (nth 0 x O =? nth 1 x O)%nat then 0 else get m x).
Definition dq_mat : res (arr R_star) := let! m := fbr2dvr_mat dq_fbr in Ok (clear_diag m).

(** dvr.py lines 640-651 [dq2_mat], 653-665 [t_mat] *)
Definition t_diag : list R := map (fun j => - (INR j * PI / len) ^ 2) (seq 1 n).
Definition dq2_mat : res (arr R_star) := fbr2dvr_mat (np_diag (K := R_star) t_diag).
Definition t_mat : res (arr R_star) :=
  let! m := fbr2dvr_mat (np_diag (K := R_star) t_diag) in Ok (arr_scale (K := R_star) (- hbar ^ 2 / (2 * m_e)) m).

(** dvr.py lines 123-134 [v_mat], 146-156 [h_mat]; the stored [_h_mat] is left out *)
Variable v_func : R -> R.
Definition v_mat : arr R_star := np_diag (K := R_star) (map v_func grid_points).
Definition h_mat : res (arr R_star) := let! t := t_mat in arr_add t v_mat.

(** dvr.py lines 272-291 [fbr2cont], 231-243 [dvr_func], 667-680 [fbr_func] *)
Definition fbr_func (i : nat) (x : R) : R := particle_in_box (i + 1) len a x.
Fixpoint psi_loop (vec : rvec) (x : R) (js : list nat) (psi : R) : res R :=
  match js with
  | [] => Ok psi
  | j :: js => match nth_error vec j with None => Raise IndexError | Some c => psi_loop vec x js (psi + fbr_func j x * c) end
  end.
Definition fbr2cont (vec : rvec) (x : R) : res R := psi_loop vec x (seq 0 n) 0.
Definition dvr_func (alpha : nat) (x : R) : res R :=
  fbr2cont (map (fun i => get u_mat [i; alpha]) (seq 0 n)) x.
(** dvr.py lines 216-229 [dvr2cont] *)
Definition dvr2cont (vec : rvec) (x : R) : res R := let! f := dvr2fbr_vec vec in fbr2cont f x.

(** dvr.py lines 803-841 [FastSineDVR.h_mat] and its [_matvec]; [dst] is [fftpack.dst(_, type=1)] *)
Variable dst : rvec -> res rvec.
Definition vmulR (x y : rvec) : rvec := map (fun p => Rmult (fst p) (snd p)) (combine x y).
Definition vaddR (x y : rvec) : rvec := map (fun p => Rplus (fst p) (snd p)) (combine x y).
Definition fast_t : list R := map (fun j => (hbar * INR j * PI / len) ^ 2 / (2 * m_e)) (seq 1 n).
Definition fast_matvec (vec : rvec) : res rvec :=
  let v := map v_func grid_points in
  let t := map (fun x => x / (2 * (INR (length v) + 1))) fast_t in
  if negb (length vec =? length v)%nat then Raise ValueError else
  let vec1 := vmulR v vec in
  let! d := dst vec in
  let! vec2 := dst (vmulR t d) in
  Ok (vaddR vec1 vec2).

(** dvr.py lines 320-346 [propagator]; [eigh] gives eigenvalues and the matrix whose columns are
    eigenvectors *)
Variable eigh : arr R_star -> rvec * arr R_star.
Definition toC (m : arr R_star) : arr C_star := mkArr (K := C_star) (shape m) (map RtoC (data m)).
Definition phases (tau : R) (l : rvec) : list C_star :=
  map (fun x => Cexp (rmul (ropp C_i) (RtoC (hbar * tau * x)))) l.
Definition diag_of (m : arr R_star) : rvec := map (fun i => get m [i; i]) (seq 0 (nth 0 (shape m) O)).
Definition propagator (tau : R) : res (arr C_star * arr C_star * arr C_star) :=
  let! t := t_mat in
  let '(diag, v) := eigh t in
  let! y := matmul (np_diag (phases tau diag)) (mat_T (toC v)) in
  let! p3 := matmul (toC v) y in
  let p2 := np_diag (phases tau (diag_of v_mat)) in
  let p1 := np_diag (phases tau (diag_of (arr_scale (K := R_star) 0.5 v_mat))) in
  Ok (p1, p2, p3).
End Sine.
