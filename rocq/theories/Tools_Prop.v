(** Properties C31, C32, C33, C34, C57. *)
From Coq Require Import String List Arith Bool Lia Permutation.
From Verif Require Import Py Tools_Model Tools_Spec Tools_Proof.
Import ListNotations.
Open Scope list_scope.

(** ** C31: huffman_tree *)
Theorem C31_tree_over_all_sources :
  forall (N : Type) (neqb : N -> N -> bool) (P : Type) (padd : P -> P -> P) (p0 : P)
         (ple : P -> P -> bool) (obj_new : nat -> N) nb sources (importances : list P) fuel,
    (forall x y, neqb x y = true <-> x = y) ->
    2 <= nb -> sources <> [] -> List.length importances = List.length sources ->
    (forall i, ~ In (obj_new i) sources) -> (forall i j, obj_new i = obj_new j -> i = j) ->
    List.length sources <= fuel ->
    exists g root t, huffman_tree neqb padd p0 ple sources importances obj_new nb fuel = Ok (g, root) /\
      unfolds (dlookup neqb g) root t /\ Permutation (tips t) sources /\ degrees 2 nb t.
Proof. intros. now apply huffman_ok. Qed.
Print Assumptions C31_tree_over_all_sources.

Theorem C31_too_few_branches_never_ends :
  forall (N : Type) (neqb : N -> N -> bool) (P : Type) (padd : P -> P -> P) (p0 : P)
         (ple : P -> P -> bool) (obj_new : nat -> N) nb sources (importances : list P) fuel,
    nb <= 1 -> 2 <= List.length sources -> List.length importances = List.length sources ->
    huffman_tree neqb padd p0 ple sources importances obj_new nb fuel = Raise RecursionError.
Proof.
  intros. apply huffman_loop_stuck; auto. rewrite combine_length. lia.
Qed.
Print Assumptions C31_too_few_branches_never_ends.

Theorem C31_empty_rejected :
  forall (N : Type) (neqb : N -> N -> bool) (P : Type) (padd : P -> P -> P) (p0 : P)
         (ple : P -> P -> bool) (obj_new : nat -> N) nb importances fuel,
    huffman_tree neqb padd p0 ple [] importances obj_new nb (S fuel) = Raise IndexError.
Proof. reflexivity. Qed.
Print Assumptions C31_empty_rejected.

Definition exHuff nb := huffman_tree Nat.eqb Nat.add 0 Nat.leb [1;2;3;4;5] [5;1;1;3;2]
                          (fun i => 100 + i) nb 5.
Example C31_example :
  exHuff 2 = Ok ([(100,[2;3]); (101,[100;5]); (102,[4;101]); (103,[1;102])], 103).
Proof. reflexivity. Qed.
Example C31_example_ternary :
  exHuff 3 = Ok ([(100,[2;3;5]); (101,[4;100;1])], 101).
Proof. reflexivity. Qed.
Example C31_example_hyp :
  (forall i, ~ In (100 + i) [1;2;3;4;5]) /\ (forall i j, 100 + i = 100 + j -> i = j).
Proof. split; intros; cbn; lia. Qed.

(** ** C32: names that are not fresh *)
Theorem C32_constant_names_lose_sources :
  forall (N : Type) (neqb : N -> N -> bool) (P : Type) (padd : P -> P -> P) (p0 : P)
         (ple : P -> P -> bool) c nb sources (importances : list P) fuel,
    (forall x y, neqb x y = true <-> x = y) ->
    2 <= nb -> nb < List.length sources -> List.length importances = List.length sources ->
    List.length sources <= fuel -> NoDup sources ->
    exists g, huffman_tree neqb padd p0 ple sources importances (fun _ => c) nb fuel = Ok (g, c) /\
      (forall t, ~ unfolds (dlookup neqb g) c t) /\
      (exists s, In s sources /\ forall k v, dlookup neqb g k = Some v -> ~ In s v).
Proof. intros. now apply huffman_const_loses. Qed.
Print Assumptions C32_constant_names_lose_sources.

(** The default counter is such a constant. *)
Theorem C32_default_counter_constant :
  forall i, default_counter i = 1.
Proof. reflexivity. Qed.
Print Assumptions C32_default_counter_constant.

Theorem C32_spin_boson_update_dangling :
  forall (N : Type) (neqb : N -> N -> bool) (P : Type) (padd : P -> P -> P) (p0 : P)
         (ple : P -> P -> bool) leaves root c (p1 : P) fuel graph,
    (forall x y, neqb x y = true <-> x = y) ->
    3 <= List.length leaves -> List.length leaves <= fuel -> c <> root ->
    dlookup neqb graph c = None ->
    exists g v, sb_update neqb padd p0 ple graph leaves root c p1 fuel = Ok g /\
      dlookup neqb g root = Some v /\ In c v /\ List.length v <= 2 /\ dlookup neqb g c = None.
Proof. intros. now apply sb_update_dangling. Qed.
Print Assumptions C32_spin_boson_update_dangling.

Theorem C32_spin_boson_update_single_leaf_dropped :
  forall (N : Type) (neqb : N -> N -> bool) (P : Type) (padd : P -> P -> P) (p0 : P)
         (ple : P -> P -> bool) leaf root c (p1 : P) fuel graph,
    sb_update neqb padd p0 ple graph [leaf] root c p1 (S fuel) = Ok graph.
Proof. intros. apply sb_update_single. Qed.
Print Assumptions C32_spin_boson_update_single_leaf_dropped.

Example C32_example :
  huffman_tree Nat.eqb Nat.add 0 Nat.leb [7;8;9] [1;1;1] default_counter 2 3
  = Ok ([(1, [9; 1])], 1).
Proof. reflexivity. Qed.
Example C32_example_update :
  sb_update String.eqb Nat.add 0 Nat.leb [("ROOT"%string, ["INNER"%string])]
    ["a"%string; "b"%string; "c"%string] "INNER"%string "AI1"%string 1 3
  = Ok [("ROOT"%string, ["INNER"%string]); ("INNER"%string, ["c"%string; "AI1"%string])].
Proof. reflexivity. Qed.

(** ** C33: iter_visitor *)
Theorem C33_yields_reachable_once :
  forall (V : Type) (mem : V -> list V -> bool) (E : V -> V -> Prop)
         (ext : V -> list V -> list V) m fuel start ys,
    (forall x l, mem x l = true <-> In x l) ->
    (forall v vis x, In x (ext v vis) <-> E v x /\ ~ In x vis) ->
    m <> OtherMethod -> iter_visitor mem ext m fuel start = Ok ys ->
    NoDup ys /\ forall x, In x ys <-> reach E start x.
Proof. intros. eapply visitor_reachable; eauto. Qed.
Print Assumptions C33_yields_reachable_once.

Theorem C33_stops_on_finite_graphs :
  forall (V : Type) (mem : V -> list V -> bool) (E : V -> V -> Prop)
         (ext : V -> list V -> list V) (U : list V) m start,
    (forall x l, mem x l = true <-> In x l) ->
    (forall v vis x, In x (ext v vis) <-> E v x /\ ~ In x vis) ->
    (forall x y, In x U -> E x y -> In y U) -> m <> OtherMethod -> In start U ->
    exists fuel0 ys, forall fuel, fuel0 <= fuel -> iter_visitor mem ext m fuel start = Ok ys.
Proof. intros. eapply visitor_terminates; eauto. Qed.
Print Assumptions C33_stops_on_finite_graphs.

Theorem C33_breadth_first_by_distance :
  forall (V : Type) (mem : V -> list V -> bool) (E : V -> V -> Prop)
         (ext : V -> list V -> list V) start fuel ys i j y z,
    (forall x l, mem x l = true <-> In x l) ->
    (forall v vis x, In x (ext v vis) <-> E v x /\ ~ In x vis) ->
    iter_visitor mem ext BFS fuel start = Ok ys ->
    i <= j -> nth_error ys i = Some y -> nth_error ys j = Some z ->
    exists n m, distance E start y n /\ distance E start z m /\ n <= m.
Proof. intros. eapply bfs_ordered; eauto. Qed.
Print Assumptions C33_breadth_first_by_distance.

Theorem C33_other_method_rejected :
  forall (V : Type) mem (ext : V -> list V -> list V) fuel start,
    iter_visitor mem ext OtherMethod (S fuel) start = Raise NotImplementedError.
Proof. intros. apply visitor_other. Qed.
Print Assumptions C33_other_method_rejected.

(** A graph with a cycle 0 -> 1 -> 2 -> 0 and a shortcut 0 -> 2, 2 -> 3. *)
Definition exE (v : nat) : list nat :=
  match v with 0 => [1; 2] | 1 => [2] | 2 => [0; 3] | _ => [] end.
Definition exMem (x : nat) (l : list nat) : bool := existsb (Nat.eqb x) l.
Definition exExt (v : nat) (vis : list nat) : list nat :=
  filter (fun x => negb (exMem x vis)) (exE v).
Example C33_example_hyp :
  (forall x l, exMem x l = true <-> In x l) /\
  (forall v vis x, In x (exExt v vis) <-> In x (exE v) /\ ~ In x vis).
Proof.
  assert (H : forall x l, exMem x l = true <-> In x l).
  { intros x l. unfold exMem. rewrite existsb_exists. split.
    - intros (y & Hy & E). apply Nat.eqb_eq in E. now subst.
    - intros Hx. exists x. split; auto. apply Nat.eqb_refl. }
  split; auto. intros v vis x. unfold exExt. rewrite filter_In, negb_true_iff.
  rewrite <- (H x vis). destruct (exMem x vis); split; intros [? ?]; split; auto; congruence.
Qed.
Example C33_example_dfs : iter_visitor exMem exExt DFS 10 0 = Ok [0; 2; 3; 1].
Proof. reflexivity. Qed.
Example C33_example_bfs : iter_visitor exMem exExt BFS 10 0 = Ok [0; 1; 2; 3].
Proof. reflexivity. Qed.

(** ** C34: lazyproperty *)
Theorem C34_computed_at_most_once :
  forall (Val Other : Type) a (f : inst Val Other -> Val) o ops,
    idict o a = None -> Forall (keeps Val Other a) ops ->
    exists v, lazy_run a a f o ops
      = (repeat v (List.length (filter (is_read Val Other) ops)),
         min 1 (List.length (filter (is_read Val Other) ops))).
Proof. intros. now apply lazy_once. Qed.
Print Assumptions C34_computed_at_most_once.

(** The value is that of the first read, whatever changes later. *)
Theorem C34_value_of_first_read :
  forall (Val Other : Type) a (f : inst Val Other -> Val) o ops,
    idict o a = None -> Forall (keeps Val Other a) ops ->
    lazy_run a a f o (LRead :: ops)
    = (repeat (f o) (S (List.length (filter (is_read Val Other) ops))), 1).
Proof. intros. now apply lazy_first. Qed.
Print Assumptions C34_value_of_first_read.

Theorem C34_other_name_not_cached :
  forall (Val Other : Type) a n (f : inst Val Other -> Val) o k,
    a <> n -> idict o a = None -> snd (lazy_run a n f o (repeat LRead k)) = k.
Proof. intros. now apply lazy_other_name. Qed.
Print Assumptions C34_other_name_not_cached.

(** Three reads with the state doubled in between: the stale first value is kept. *)
Example C34_example :
  lazy_run "x"%string "x"%string (fun o : inst nat nat => iother o * 10)
    {| idict := fun _ => None; iother := 7 |}
    [LRead; LMutate (fun n => 2 * n); LRead; LWrite "y"%string 3; LRead]
  = ([70; 70; 70], 1).
Proof. reflexivity. Qed.

(** ** C57: unzip *)
Theorem C57_unzip_columns :
  forall (A : Type) (rows : list (list A)) n d,
    rows <> [] -> Forall (fun r => List.length r = n) rows ->
    unzip rows = Ok (map (fun i => Ok (map (fun r => nth i r d) rows)) (seq 0 n)).
Proof. exact @unzip_columns. Qed.
Print Assumptions C57_unzip_columns.

Theorem C57_unzip_empty_rejected :
  forall (A : Type), @unzip A [] = Raise StopIteration.
Proof. reflexivity. Qed.
Print Assumptions C57_unzip_empty_rejected.

Example C57_example :
  unzip [[1;2;3]; [4;5;6]] = Ok [Ok [1;4]; Ok [2;5]; Ok [3;6]].
Proof. reflexivity. Qed.
Example C57_example_ragged :
  unzip [[1;2]; [4]] = Ok [Ok [1;4]; Raise IndexError].
Proof. reflexivity. Qed.
