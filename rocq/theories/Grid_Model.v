(** Grids and Fourier transforms, /repo/minitn/bases/girds.py.

    Simplifications.  Numbers are exact, the points are real numbers; a division by zero (a grid of
    one point, or of zero width) has an unspecified value here.  [fftpack.fft] and [fftpack.ifft] are
    their defining sums.  Functions as arguments of [ft], which are interpolated, are in Wave_Model.v. *)
From Coq Require Import List Arith Bool Reals ZArith.
From Verif Require Import Py Alg Cplx ListX.
Import ListNotations.
Local Open Scope py_scope.

Inductive kind := Coordinate | Momentum.
(** lines 15-21 [GridBasis.__init__], 102-106 and 137-141; [g_conj] is the attribute [_conj] *)
Record grid := mkGrid { g_kind : kind; g_space : list R; g_hbar : R; g_conj : option nat }.
Notation gheap := (list grid).
Definition no_grid : grid := mkGrid Coordinate [] 0 None.
Definition gget (h : gheap) (i : nat) : grid := nth i h no_grid.
Definition linspace (a b : R) (n : nat) : list R := map (fun k => a + INR k * ((b - a) / INR (n - 1)))%R (seq 0 n).
Definition new_grid (k : kind) (a b : R) (n : nat) (hbar : R) : grid := mkGrid k (linspace a b n) hbar None.
(** lines 35-37 [width] *)
Definition width (g : grid) : res R :=
  match g_space g with [] => Raise IndexError | a :: _ => Ok (last (g_space g) 0 - a)%R end.
Definition set_conj (c : nat) (g : grid) : grid := mkGrid (g_kind g) (g_space g) (g_hbar g) (Some c).
(** lines 108-120 and 143-153 [conj]: the new grid is the last object of the heap *)
Definition conj_of (h : gheap) (i : nat) : res (gheap * nat) :=
  let g := gget h i in
  match g_conj g with
  | Some j => Ok (h, j)
  | None =>
      let! w0 := width g in
      let n := length (g_space g) in
      let co :=
        match g_kind g with
        | Coordinate =>
            let w := (2 * PI * g_hbar g * INR n / w0)%R in
            let half := (if Nat.odd n then 0.5 else 0.5 * (1 - 1 / INR (n - 1)))%R in
            new_grid Momentum ((half - 1) * w) (half * w) n (g_hbar g)
        | Momentum =>
            let half_width := (PI * g_hbar g * INR n / w0)%R in
            new_grid Coordinate (- half_width) half_width n (g_hbar g)
        end in
      Ok (upd i (set_conj (length h) g) h ++ [set_conj i co], length h)
  end.

(** [fftpack.fft], [ifft], [fftshift], [ifftshift]: rolls by half of the length *)
Definition dft (sign : R) (v : list C_star) : list C_star :=
  let n := length v in
  map (fun k => sumn n (fun m => rmul (nth m v r0) (Cexp (0, sign * (2 * PI * (INR k * INR m) / INR n))%R))) (seq 0 n).
Definition fft (v : list C_star) : res (list C_star) := match v with [] => Raise ValueError | _ => Ok (dft (-1) v) end.
Definition ifft (v : list C_star) : res (list C_star) :=
  match v with [] => Raise ValueError | _ => Ok (map (fun x => rmul (RtoC (/ INR (length v))) x) (dft 1 v)) end.
Definition roll (s : nat) (v : list C_star) : list C_star := skipn s v ++ firstn s v.
Definition fftshift (v : list C_star) : list C_star := roll (length v - length v / 2) v.
Definition ifftshift (v : list C_star) : list C_star := roll (length v / 2) v.
(** lines 127-132 and 160-165 [ft], for an array of one or of two dimensions, lines 87-99 [keep_ft_type] *)
Inductive waves := One (v : list C_star) | Many (vs : list (list C_star)).
Definition ft_vec (g : grid) (w : R) (v : list C_star) : res (list C_star) :=
  let c := (sqrt (2 * PI * g_hbar g) / w)%R in
  match g_kind g with
  | Coordinate => let! u := fft (ifftshift v) in Ok (map (rmul (RtoC c)) (fftshift u))
  | Momentum => let! u := ifft (ifftshift v) in Ok (map (rmul (RtoC (c * INR (length (g_space g))))) (fftshift u))
  end.
Definition ft (h : gheap) (i : nat) (x : waves) : res (gheap * waves) :=
  let! r := conj_of h i in
  let! w := width (gget (fst r) (snd r)) in
  match x with
  | One v => let! u := ft_vec (gget h i) w v in Ok (fst r, One u)
  | Many vs => let! us := mapM (ft_vec (gget h i) w) vs in Ok (fst r, Many us)
  end.
