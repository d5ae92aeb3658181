(** Property C31, continued: the cost of Huffman trees. *)
From Coq Require Import List Arith ZArith Bool Lia Permutation.
From Verif Require Import Py Alg Ord Tools_Model Tools_Spec Tools_Proof HuffName_Proof Huff_Spec Huff_Proof.
Import ListNotations.
Local Open Scope nat_scope.
Local Open Scope list_scope.

(** Sources with importances that are not negative; their number is one more than a multiple
    of [nb - 1], which holds for [nb = 2] in any case.  No tree over the sources with at most
    [nb] children per node costs less. *)
Theorem C31_least_cost :
  forall (K : OrdRing) (N : Type) (neqb : N -> N -> bool) (obj_new : nat -> N) nb sources (w : N -> K) k fuel,
    (forall x y, neqb x y = true <-> x = y) ->
    2 <= nb -> List.length sources = 1 + k * (nb - 1) -> (forall n, In n sources -> ole r0 (w n)) ->
    (forall i, ~ In (obj_new i) sources) -> (forall i j, obj_new i = obj_new j -> i = j) ->
    List.length sources <= fuel ->
    exists g root t,
      huffman_tree neqb radd r0 (fun x y => negb (gtb x y)) sources (map w sources) obj_new nb fuel = Ok (g, root) /\
      unfolds (dlookup neqb g) root t /\ Permutation (tips t) sources /\ degrees 2 nb t /\
      forall t', Permutation (tips t') sources -> degrees 0 nb t' -> ole (cost w t) (cost w t').
Proof.
  intros K N neqb obj_new nb sources w k fuel Hq Hb Hl Hw Hf Hi Hn. apply huffman_least; auto.
  - intros ->. discriminate.
  - right. split; eauto.
Qed.
Print Assumptions C31_least_cost.

(** Any importances: no tree with exactly [nb] children per node costs less. *)
Theorem C31_least_cost_full_trees :
  forall (K : OrdRing) (N : Type) (neqb : N -> N -> bool) (obj_new : nat -> N) nb sources (w : N -> K) fuel,
    (forall x y, neqb x y = true <-> x = y) ->
    2 <= nb -> sources <> [] ->
    (forall i, ~ In (obj_new i) sources) -> (forall i j, obj_new i = obj_new j -> i = j) ->
    List.length sources <= fuel ->
    exists g root t,
      huffman_tree neqb radd r0 (fun x y => negb (gtb x y)) sources (map w sources) obj_new nb fuel = Ok (g, root) /\
      unfolds (dlookup neqb g) root t /\ Permutation (tips t) sources /\ degrees 2 nb t /\
      forall t', Permutation (tips t') sources -> degrees nb nb t' -> ole (cost w t) (cost w t').
Proof. intros. apply huffman_least; auto. Qed.
Print Assumptions C31_least_cost_full_trees.

(** Without the condition on the number of sources the tree can be too costly: the node with
    fewer children should be the lowest, but it is the root. *)
Definition hx_new (i : nat) : nat := 100 + i.
Definition hx_w (_ : nat) : Z_ord := 1%Z.
Definition hx_better : ntree nat := Fork 200 [Tip 1; Tip 2; Fork 201 [Tip 3; Tip 4]].
Theorem C31_least_cost_any_number_refuted :
  ~ (forall (K : OrdRing) (N : Type) (neqb : N -> N -> bool) (obj_new : nat -> N) nb sources (w : N -> K) fuel g root t t',
      (forall x y, neqb x y = true <-> x = y) ->
      2 <= nb -> (forall n, In n sources -> ole r0 (w n)) ->
      (forall i, ~ In (obj_new i) sources) -> (forall i j, obj_new i = obj_new j -> i = j) ->
      huffman_tree neqb radd r0 (fun x y => negb (gtb x y)) sources (map w sources) obj_new nb fuel = Ok (g, root) ->
      unfolds (dlookup neqb g) root t -> Permutation (tips t') sources -> degrees 2 nb t' -> ole (cost w t) (cost w t')).
Proof.
  intros H. specialize (H Z_ord nat Nat.eqb hx_new 3 [1; 2; 3; 4] hx_w 5 [(100, [1; 2; 3]); (101, [4; 100])] 101
    (Fork 101 [Tip 4; Fork 100 [Tip 1; Tip 2; Tip 3]]) hx_better Nat.eqb_eq ltac:(lia)).
  assert (X : ole (K := Z_ord) 7%Z 6%Z); [|discriminate X].
  apply H; unfold hx_new, hx_w, hx_better.
  - intros n _. reflexivity.
  - intros i. cbn. lia.
  - intros i j. lia.
  - reflexivity.
  - apply unf_fork with (ns := [4; 100]); [reflexivity|]. constructor; [constructor; reflexivity|]. constructor; [|constructor].
    apply unf_fork with (ns := [1; 2; 3]); [reflexivity|]. repeat constructor.
  - cbn. reflexivity.
  - repeat (constructor; cbn; auto).
Qed.
Print Assumptions C31_least_cost_any_number_refuted.

(** Five sources: cost 25, a balanced tree costs 29. *)
Definition hx_w5 (n : nat) : Z_ord := nth n [0; 5; 1; 1; 3; 2]%Z 0%Z.
Definition hx_tree : ntree nat := Fork 103 [Tip 1; Fork 102 [Tip 4; Fork 101 [Fork 100 [Tip 2; Tip 3]; Tip 5]]].
Example C31_least_cost_example :
  huffman_tree Nat.eqb radd r0 (fun x y => negb (gtb x y)) [1; 2; 3; 4; 5] (map hx_w5 [1; 2; 3; 4; 5]) hx_new 2 5
    = Ok ([(100, [2; 3]); (101, [100; 5]); (102, [4; 101]); (103, [1; 102])], 103) /\
  unfolds (dlookup Nat.eqb [(100, [2; 3]); (101, [100; 5]); (102, [4; 101]); (103, [1; 102])]) 103 hx_tree /\
  cost hx_w5 hx_tree = 25%Z /\
  cost hx_w5 (Fork 0 [Fork 0 [Tip 1; Tip 2]; Fork 0 [Tip 3; Fork 0 [Tip 4; Tip 5]]]) = 29%Z /\
  List.length [1; 2; 3; 4; 5] = 1 + 4 * (2 - 1) /\ (forall n, ole r0 (hx_w5 n)).
Proof.
  split; [reflexivity|]. split; [|split; [reflexivity|split; [reflexivity|split; [reflexivity|]]]].
  - unfold hx_tree. repeat (eapply unf_fork; [reflexivity|]; repeat (constructor; [apply unf_tip; reflexivity|]); try apply Forall2_nil; constructor).
    all: try (constructor).
    all: repeat (first [apply unf_tip; reflexivity | eapply unf_fork; [reflexivity|] | constructor]).
  - intros n. do 6 (destruct n as [|n]; [reflexivity|]). destruct n; reflexivity.
Qed.
