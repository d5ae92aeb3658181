(** What a graph of names stands for: the tree below its root. *)
From Coq Require Import String List Arith.
From Verif Require Import Py Alg Cplx NdArray_Model Template_Model Spin_Model.
Import ListNotations.
Notation length := Datatypes.length.
Local Open Scope nat_scope.

(** The names that can be reached from a name. *)
Inductive reach (g : string -> option (list string)) (r : string) : string -> Prop :=
| reach_here : reach g r r
| reach_down x l y : reach g r x -> g x = Some l -> In y l -> reach g r y.
(** A leaf of the tree: reached, and without children. *)
Definition tree_leaf (g : string -> option (list string)) (r x : string) : Prop := reach g r x /\ g x = None.

(** The names of the leaves of a model with [m] inner and [k] outer modes. *)
Definition mode_names (prefix : string) (m : nat) : list string := map (fun n => (prefix ++ str n)%string) (seq 0 m).
Definition model_leaves (m k : nat) : list string := "ELEC"%string :: mode_names "I" m ++ mode_names "O" k.

(** What is left of a list of names below [root]: two names stay; a single one is lost, and
    [root] is a leaf; of three or more at most the last stays, beside the leaf [c]. *)
Definition kept (root c : string) (l : list string) : list string :=
  match l with
  | [] => []
  | [_] => [root]
  | [x; y] => [x; y]
  | [_; _; z] => [z; c]
  | _ => [c; c]
  end.

(** The numbers of modes that the loops over [zip] see, and parameters that do not raise: equal
    numbers of frequencies and displacements, and some outer mode if there is a bath. *)
Definition n_inner (p : spin_params) : nat := min (length (sp_dims p)) (length (sp_omegas p)).
Definition n_outer (p : spin_params) : nat := match sp_outer p with Some (modes, _) => length modes | None => 0 end.
Definition good (p : spin_params) : Prop := length (sp_lambdas p) = length (sp_omegas p) /\ forall dim, sp_outer p <> Some ([], dim).
(** The entries of a term are square matrices on leaves of the given dimensions. *)
Definition term_fits (d : list (string * nat)) (t : list (string * arr C_star)) : Prop := forall e, In e t -> exists n, In (fst e, n) d /\ shape (snd e) = [n; n].
