(** States as functions of the values on the free axes, their inner product and norm; networks of
    the same form. *)
From Coq Require Import List Arith Reals.
From Verif Require Import Alg Cplx NdArray_Model Net_Model Net_Spec.
Import ListNotations.
Local Open Scope list_scope.

(** <u|v> over axes of the lengths [ds]. *)
Definition braket (ds : list nat) (u v : list nat -> C_star) : C_star := sumL (indices ds) (fun x => rmul (rconj (u x)) (v x)).
Definition length_of (ds : list nat) (u : list nat -> C_star) : R := sqrt (fst (braket ds u u)).

(** The tree with other objects at the same places. *)
Fixpoint relabel (f : id -> id) (t : tree) : tree :=
  match t with
  | Lf n => Lf (f n)
  | Nd n ks => Nd (f n) (map (fun k => (fst (fst k), relabel f (snd (fst k)), snd k)) ks)
  end.

(** [h'] is [h] but for [aux]. *)
Definition but_aux {K : StarRing} (h h' : heap K) : Prop := length h' = length h /\
  forall n, oleaf (hget h' n) = oleaf (hget h n) /\ oarr (hget h' n) = oarr (hget h n) /\ oaxis (hget h' n) = oaxis (hget h n) /\
    onorm (hget h' n) = onorm (hget h n) /\ oacc (hget h' n) = oacc (hget h n) /\ ocache (hget h' n) = ocache (hget h n).

(** What [np.arccos] does on real numbers between -1 and 1, and that a real value is an angle with that cosine. *)
Definition arccos_like (f : C_star -> C_star) : Prop :=
  (forall x, (-1 <= x <= 1)%R -> f (RtoC x) = RtoC (acos x)) /\ (forall z x, f z = RtoC x -> z = RtoC (cos x)).
