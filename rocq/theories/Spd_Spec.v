(** Sums of simple fractions. *)
From Coq Require Import List Reals.
From Verif Require Import Alg Cplx.
Import ListNotations.
(** [sum r / (w - p)] over the pairs [(r, p)] *)
Definition fractions (l : list (C_star * C_star)) (w : C_star) : C_star := sumL l (fun q => fst q * Cinv (w - snd q))%S.
