(** Fourier sums about the middle of a grid. *)
From Coq Require Import List Arith Reals ZArith.
From Verif Require Import Py Alg Cplx.
Local Open Scope Z_scope.

(** [e^(2 pi i z / n)] *)
Definition turn (n : nat) (z : Z) : C_star := (cos (2 * PI * IZR z / INR n), sin (2 * PI * IZR z / INR n))%R.
(** The distance of a point from the middle *)
Definition off (n k : nat) : Z := Z.of_nat k - Z.of_nat (n / 2).
(** [sum_m v_m e^(+- 2 pi i k m / n)], both counted from the middle *)
Definition centred (s : Z) (n : nat) (v : nat -> C_star) (k : nat) : C_star :=
  sumn n (fun m => rmul (v m) (turn n (s * (off n k * off n m)))).
From Verif Require Import Grid_Model.
(** Two grids for one another: of different kinds, and the product of the widths is [2 pi hbar n] *)
Definition conjugate (g g' : grid) : Prop :=
  g_kind g <> g_kind g' /\ g_hbar g' = g_hbar g /\ length (g_space g') = length (g_space g) /\
  exists w w', width g = Ok w /\ width g' = Ok w' /\ (w * w' = 2 * PI * g_hbar g * INR (length (g_space g)))%R.
(** A grid that has a conjugate one is the conjugate one of it *)
Definition paired (h : gheap) : Prop := forall i, (i < length h)%nat ->
  match g_conj (gget h i) with None => True | Some j => (j < length h)%nat /\ conjugate (gget h i) (gget h j) /\ g_conj (gget h j) = Some i end.
(** At least two points, not all in one place *)
Definition proper (g : grid) : Prop := (2 <= length (g_space g))%nat /\ (0 < g_hbar g)%R /\ exists w, width g = Ok w /\ w <> 0%R.
Definition same_points (g g' : grid) : Prop := g_kind g' = g_kind g /\ g_space g' = g_space g /\ g_hbar g' = g_hbar g.
