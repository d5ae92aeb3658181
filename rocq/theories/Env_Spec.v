(** Specifications for environments of a network. *)
From Coq Require Import List Arith Bool.
From Verif Require Import Py Alg ListX NdArray_Model Contract_Spec Net_Model Net_Spec.
Import ListNotations.
Local Open Scope nat_scope.

Section EnvSpec.
Variable K : StarRing.
Implicit Types h : heap K.
Implicit Types A B : id -> arr K.

(** The matrix on a leaf: [None] stands for the identity. *)
Definition leafarr h (ua : bool) (l : id) : option (arr K) :=
  if ua then oaux (hget h l) else oarr (hget h l).
Definition lmat h (ua : bool) (l : id) (p q : nat) : K :=
  match leafarr h ua l with None => delta p q | Some m => get m [p; q] end.
Definition leaf_fits h (ua : bool) (l : id) (dA dB : nat) : Prop :=
  match leafarr h ua l with None => dA = dB | Some m => wf m /\ shape m = [dA; dB] end.

(** Unit rows along the axis towards the parent; unit norm for a root. *)
Definition unit_along (a : arr K) (ax : option nat) : Prop :=
  match ax with
  | Some i => isometric a i
  | None => sumL (indices (shape a)) (fun r => rmul (rconj (get a r)) (get a r)) = r1
  end.

(** [A] gives the arrays, [B] the arrays of the other state ([aux]), or the
    conjugates; a tensor flagged as normalised is normalised along its own axis. *)
Definition node_ok h (ua : bool) A B (n : id) : Prop :=
  oarr (hget h n) = Some (A n) /\
  if ua then oaux (hget h n) = Some (B n)
  else B n = arr_conj (A n) /\ (onorm (hget h n) = true -> unit_along (A n) (oaxis (hget h n))).

(** Entry [p], [q] of the environment below [t]: sum over the leaf values [v] of the
    ket and [w] of the bra. *)
Definition env_dense A B (M : id -> nat -> nat -> K) (ax : option nat) (dA dB : nat) (t : tree) (p q : nat) : K :=
  sumL (indices (ldims A ax dA t)) (fun v => sumL (indices (ldims B ax dB t)) (fun w =>
    rmul (rmul (amp A (asg (lids t) v) ax t p) (amp B (asg (lids t) w) ax t q))
         (prodL (lids t) (fun l => M l (asg (lids t) v l) (asg (lids t) w l))))).

(** The result [r] stands for the square matrix [f]; [None] for the identity. *)
Definition stands_for (r : option (arr K)) (d : nat) (f : nat -> nat -> K) : Prop :=
  match r with
  | None => forall p q, p < d -> q < d -> f p q = delta p q
  | Some m => wf m /\ shape m = [d; d] /\ forall p q, p < d -> q < d -> f p q = get m [p; q]
  end.

(** When the environment is skipped. *)
Inductive skips h : nat -> tree -> Prop :=
| skips_leaf j l : oarr (hget h l) = None -> skips h j (Lf l)
| skips_node j n ks : onorm (hget h n) = true -> oaxis (hget h n) = Some j ->
    Forall (fun k => skips h (k_j k) (k_t k)) ks -> skips h j (Nd n ks).

(** Queries one after the other on the same heap. *)
Fixpoint queries (fuel : nat) h (qs : list (id * option nat)) : res (list (option (arr K)) * heap K) :=
  match qs with
  | [] => Ok ([], h)
  | q :: qs =>
      match partial_env fuel false h (fst q) (snd q) with
      | Raise e => Raise e
      | Ok (v, h) => match queries fuel h qs with
                     | Raise e => Raise e
                     | Ok (vs, h) => Ok (v :: vs, h)
                     end
      end
  end.
(** The same queries, each on the heap without stored values. *)
Fixpoint fresh (fuel : nat) h (qs : list (id * option nat)) : res (list (option (arr K))) :=
  match qs with
  | [] => Ok []
  | q :: qs =>
      match partial_env fuel false (reset_all h) (fst q) (snd q) with
      | Raise e => Raise e
      | Ok (v, _) => match fresh fuel h qs with
                     | Raise e => Raise e
                     | Ok vs => Ok (v :: vs)
                     end
      end
  end.

End EnvSpec.
Arguments env_dense {K} _ _ _ _ _ _ _ _ _. Arguments stands_for {K} _ _ _. Arguments skips {K} _ _ _.
Arguments queries {K} _ _ _. Arguments fresh {K} _ _ _.
Arguments leafarr {K} _ _ _. Arguments lmat {K} _ _ _ _ _. Arguments leaf_fits {K} _ _ _ _ _.
Arguments unit_along {K} _ _. Arguments node_ok {K} _ _ _ _ _.
