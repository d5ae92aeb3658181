(** The leaves and the trees of the spin-boson model, /repo/minitn/models/spinboson.py: the
    lists [leaves] and [dimensions] that [__init__] fills (lines 49-68, 170-183, 204-228), the
    properties [inner_leaves] and [outer_leaves] (245-251), and [autograph_mctdh],
    [autograph_full], [autograph] and [autograph_with_aux] (70-116).

    Simplifications.  The model counts the modes as the loops over [zip] do; the matrices are in
    Spin_Model.v.  A graph maps names to lists of names; where the code puts a string as a value,
    the list is what [for sc in graph[sr]] of [Tensor.generate] makes of it, the characters.
    [including_bath] is given by the presence of outer modes in the parameters.  [_update] is
    [sb_update] of Tools_Model.v; its fuel stands for the loop of [huffman_tree]. *)
From Coq Require Import String Ascii List Arith Bool Reals.
From Verif Require Import Py Alg Cplx NdArray_Model Tools_Model Template_Model Phonon_Model Spin_Model.
Import ListNotations.
Notation length := Datatypes.length.
Local Open Scope nat_scope.
Local Open Scope list_scope.
Local Open Scope py_scope.

(** ** The leaves *)
(** lines 204-222 [vibration_hamiltonian]: the entries of [leaves] and [dimensions] *)
Definition vib_leaves (prefix : string) (modes : list (nat * (R * R))) : list (string * nat) :=
  map (fun p => ((prefix ++ str (fst p))%string, fst (snd p))) (enum 0 modes).
(** lines 49-68 [__init__], 170-183 [electron_hamiltonian], 230-243; the names are different, so
    the dictionary [dimensions] has one entry for each of them *)
Definition dimensions (p : spin_params) : res (list (string * nat)) :=
  let! cs := inner_couplings (sp_lambdas p) (sp_omegas p) in
  let inner := vib_leaves "I" (combine (sp_dims p) (combine (sp_omegas p) cs)) in
  let! outer := (match sp_outer p with
                 | None => Ok []
                 | Some ([], _) => Raise ValueError
                 | Some (modes, dim) => Ok (vib_leaves "O" (combine (repeat dim (length modes)) (combine (map fst modes) (map snd modes))))
                 end) in
  Ok ((elec_leaf, 2) :: inner ++ outer).
Definition leaves_of (p : spin_params) : res (list string) := let! d := dimensions p in Ok (map fst d).
(** lines 245-251 *)
Definition inner_leaves (leaves : list string) : list string := filter (String.prefix "I") leaves.
Definition outer_leaves (leaves : list string) : list string := filter (String.prefix "O") leaves.

(** ** The graphs *)
Notation graph := (list (string * list string)).
Notation set_key := (dset String.eqb).
Notation update := (dupdate String.eqb).
(** [for c in s] *)
Definition chars (s : string) : list string := map (fun c => String c EmptyString) (list_ascii_of_string s).
Definition root_key : string := "ROOT".

(** lines 70-77 [autograph_mctdh]: the values of [dict(zip(spfs, leaves))] are strings *)
Definition autograph_mctdh (bath : bool) (leaves : list string) : res (graph * string) :=
  if bath then Raise NotImplementedError else
  let leaves := inner_leaves leaves in
  let spfs := map (fun s => (s ++ "s")%string) leaves in
  let g := [(root_key, elec_leaf :: spfs)] in
  Ok (update g (update [] (combine spfs (map chars leaves))), root_key).
(** lines 79-84 [autograph_full] *)
Definition autograph_full (bath : bool) (leaves : list string) : res (graph * string) :=
  if bath then Raise NotImplementedError else
  Ok ([(root_key, elec_leaf :: inner_leaves leaves)], root_key).

(** lines 118-131 [_update]: the name that [obj_new] returns each time *)
Definition sb_upd (g : graph) (leaves : list string) (root prefix : string) (fuel : nat) : res graph :=
  sb_update String.eqb Nat.add 0 Nat.leb g leaves root (prefix ++ "1")%string 1 fuel.
(** lines 86-95 [autograph] *)
Definition autograph (bath : bool) (leaves : list string) (fuel : nat) : res (graph * string) :=
  let g := [(root_key, [elec_leaf; "INNER"%string; "OUTER"%string])] in
  let! g := (if bath then
               let! g := sb_upd g (inner_leaves leaves) "INNER" "AI" fuel in
               sb_upd g (outer_leaves leaves) "OUTER" "AO" fuel
             else
               let mid := length (inner_leaves leaves) / 2 in
               let! g := sb_upd g (firstn mid (inner_leaves leaves)) "INNER" "AI1" fuel in
               sb_upd g (skipn mid (inner_leaves leaves)) "OUTER" "AI2" fuel) in
  Ok (g, root_key).

(** [d[k]] and [d[k] = v] for the dictionary of dimensions *)
Fixpoint dim_get (d : list (string * nat)) (k : string) : res nat :=
  match d with [] => Raise KeyError | (k', v) :: d => if String.eqb k k' then Ok v else dim_get d k end.
Fixpoint dim_set (d : list (string * nat)) (k : string) (v : nat) : list (string * nat) :=
  match d with
  | [] => [(k, v)]
  | (k', v') :: d => if String.eqb k k' then (k', v) :: d else (k', v') :: dim_set d k v
  end.
Fixpoint dim_update (d h : list (string * nat)) : list (string * nat) :=
  match h with [] => d | (k, v) :: h => dim_update (dim_set d k v) h end.
(** [name[:-1]] *)
Fixpoint but_last (s : string) : string :=
  match s with
  | EmptyString => EmptyString
  | String _ EmptyString => EmptyString
  | String c s => String c (but_last s)
  end.
(** line 114: the comprehension *)
Fixpoint aux_dims (d : list (string * nat)) (names : list string) : res (list (string * nat)) :=
  match names with
  | [] => Ok []
  | n :: names =>
      let! v := dim_get d (but_last n) in
      let! r := aux_dims d names in
      Ok ((n, v) :: r)
  end.
(** lines 97-116 [autograph_with_aux]: the graph, its root and the new [dimensions] *)
Definition autograph_with_aux (bath : bool) (d : list (string * nat)) (fuel : nat) : res (graph * string * list (string * nat)) :=
  let leaves := map fst d in
  let s := fun name => (name ++ "s")%string in
  let g := [(root_key, ["ELECs"%string; "INNER"%string; "OUTER"%string])] in
  let mid := length (inner_leaves leaves) / 2 in
  let inner_spfs := if bath then map s (inner_leaves leaves) else map s (firstn mid (inner_leaves leaves)) in
  let outer_spfs := if bath then map s (outer_leaves leaves) else map s (skipn mid (inner_leaves leaves)) in
  let! g := sb_upd g inner_spfs "INNER" "AI" fuel in
  let! g := sb_upd g outer_spfs "OUTER" "AO" fuel in
  let spfs := map s leaves in
  let aux_leaves := map (fun name => (name ++ "'")%string) leaves in
  let aux := update [] (combine spfs (map (fun pq => [fst pq; snd pq]) (combine leaves aux_leaves))) in
  let g := update g aux in
  let! new := aux_dims d aux_leaves in
  Ok (g, root_key, dim_update d new).

(** The graphs of a model *)
Definition has_bath (p : spin_params) : bool := match sp_outer p with Some _ => true | None => false end.
Definition graph_mctdh (p : spin_params) := let! l := leaves_of p in autograph_mctdh (has_bath p) l.
Definition graph_full (p : spin_params) := let! l := leaves_of p in autograph_full (has_bath p) l.
Definition graph_auto (p : spin_params) (fuel : nat) := let! l := leaves_of p in autograph (has_bath p) l fuel.
Definition graph_with_aux (p : spin_params) (fuel : nat) := let! d := dimensions p in autograph_with_aux (has_bath p) d fuel.
