(** Correlation functions as sums of exponentials. *)
From Coq Require Import List Reals.
From Verif Require Import Alg Cplx.
Import ListNotations.
Local Open Scope star_scope.

(** [sum_k c_k e^(g_k t)] *)
Fixpoint exp_sum (c g : list C_star) (t : R) : C_star :=
  match c, g with
  | a :: c, x :: g => a * Cexp (x * RtoC t) + exp_sum c g t
  | _, _ => 0
  end.
(** [conj] belongs to the conjugate of the function of [coeff]. *)
Definition conjugate_data (coeff conj g : list C_star) : Prop :=
  length conj = length coeff /\ length g = length coeff /\
  forall t, exp_sum conj g t = rconj (exp_sum coeff g t).
(** One undamped mode of frequency [w] with coupling [g], thermal factor [f]: [g^2 (f cos wt - i sin wt)] *)
Definition mode_function (f w g t : R) : C_star := (g ^ 2 * f * cos (w * t), - (g ^ 2 * sin (w * t)))%R.
