(** The Hamiltonian of a system coupled to oscillators, with all indices written out. *)
From Coq Require Import List Arith Reals.
From Verif Require Import Py Alg ListX NdArray_Model Cplx.
Import ListNotations.

(** A mode: its axis, its frequency and coupling, the number of levels kept *)
Notation mode := (nat * ((R * R) * nat))%type.
Section Spec.
Variables (d s : nat).
(** [m] acting on axis [s] of dimension [d] *)
Definition on_system (m : nat -> nat -> C_star) (f : list nat -> C_star) (n : list nat) : C_star :=
  sumn d (fun x => m (nth s n 0%nat) x * f (upd s x n))%S.
(** [a + a^+] on axis [k], of which [dk] levels are kept *)
Definition ladder (k dk : nat) (f : list nat -> C_star) (n : list nat) : C_star :=
  (match nth k n 0%nat with O => r0 | S p => RtoC (sqrt (INR (S p))) * f (upd k p n) end +
   (if (S (nth k n 0%nat) <? dk)%nat then RtoC (sqrt (INR (S (nth k n 0%nat)))) * f (upd k (S (nth k n 0%nat)) n) else r0))%S.
(** [h + sum_k w_k (n_k + 1/2) + sum_k g_k x (a_k + a_k^+)] *)
Definition spin_boson (h x : nat -> nat -> C_star) (modes : list mode) (f : list nat -> C_star) (n : list nat) : C_star :=
  (on_system h f n +
   sumL modes (fun m => let '(k, ((w, g), dk)) := m in
     RtoC (w * (INR (nth k n 0%nat) + 1 / 2)) * f n + RtoC g * on_system x (ladder k dk f) n))%S.
End Spec.
(** scalar product *)
Definition scalar (ns : list nat) (f g : list nat -> C_star) : C_star := sumL (indices ns) (fun n => rmul (rconj (f n)) (g n)).
(** Axes of the modes fit an array with dimensions [ns] whose axis [s] is the system's. *)
Definition modes_fit (s : nat) (ns : list nat) (modes : list mode) : Prop :=
  Forall (fun m => let '(k, (_, dk)) := m in k < length ns /\ k <> s /\ nth k ns 0 = dk /\ 1 <= dk)%nat modes.
Definition hermitian_matrix (d : nat) (m : nat -> nat -> C_star) : Prop := forall i j, (i < d)%nat -> (j < d)%nat -> m i j = rconj (m j i).
Definition symmetric (d : nat) (m : nat -> nat -> C_star) : Prop := forall i j, (i < d)%nat -> (j < d)%nat -> m i j = m j i.
Definition real_matrix (d : nat) (m : nat -> nat -> C_star) : Prop := forall i j, (i < d)%nat -> (j < d)%nat -> rconj (m i j) = m i j.
(** Occupation of an oscillator at inverse temperature [beta], [None] for temperature zero *)
Definition occupation (beta : option R) (w : R) : R := match beta with None => 0%R | Some b => (1 / (exp (b * w) - 1))%R end.
(** The exponentials of a bath: for every oscillator [(w, g)] the two with exponents [-i w], [+i w] and weights
    [g^2 (n + 1)], [g^2 n], then those given. [first], [second] say what stands for one oscillator. *)
Definition exponentials (pr : list (R * R)) (first second : R * R -> C_star) (rest : list C_star) (k : nat) : C_star :=
  if (k <? 2 * length pr)%nat then (if Nat.even k then first else second) (nth (k / 2) pr (0, 0)%R) else nth (k - 2 * length pr) rest r0.
Definition emission (beta : option R) (p : R * R) : C_star := RtoC (snd p ^ 2 * (occupation beta (fst p) + 1)).
Definition absorption (beta : option R) (p : R * R) : C_star := RtoC (snd p ^ 2 * occupation beta (fst p)).
Definition forward (p : R * R) : C_star := rmul (ropp C_i) (RtoC (fst p)).
Definition backward (p : R * R) : C_star := rmul C_i (RtoC (fst p)).
