(** The terms an expectation value adds up. *)
From Coq Require Import List.
From Verif Require Import Py Alg NdArray_Model Net_Model.
Import ListNotations.

(** The operator if there is one; otherwise the static terms, then the driven ones at [time]. *)
Definition terms_at {K : StarRing} {T : Type} (static : list (list (id * arr K)))
  (driven : option (list (list (id * (T -> arr K))))) (op : option (list (list (id * arr K)))) (time : T) : list (list (id * arr K)) :=
  match op, driven with
  | Some o, _ => o
  | None, None => static
  | None, Some f => static ++ map (fun term => map (fun lm => let '(l, m) := lm in (l, m time)) term) f
  end.
