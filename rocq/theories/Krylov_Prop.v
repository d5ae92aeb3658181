(** C97: the wave functions [get_ext_wfns] returns. *)
From Coq Require Import Arith Bool String Lia ZArith.
From Verif Require Import Py Alg Krylov_Model Krylov_Spec.
Local Open Scope nat_scope.

Section Ext.
Variable K : StarRing.
Variable orth : mat K -> mat K.
Implicit Types W : mat K.

(** One pass of the loop is enough whatever the operator is. *)
Lemma first_pass fuel W op : rows (orth (transpose W)) = cols W -> 1 <= fuel -> search orth fuel (cols W) op (transpose W) = Ok (orth (transpose W)).
Proof. intros E F. destruct fuel as [|fuel]; [lia|]. cbn. rewrite E, Nat.leb_refl. reflexivity. Qed.

(** The result is an orthonormal basis of the space the given wave functions span, of at most as
    many, with every operator and every number of states asked for. *)
Theorem C97_basis W : rows W <= cols W -> rows (orth (transpose W)) = cols W ->
  orth_columns (cols W) (rows W) (ent (transpose W)) (cols (orth (transpose W))) (ent (orth (transpose W))) ->
  exists R, (forall fuel n_states op, 1 <= fuel -> get_ext_wfns orth fuel n_states W op "krylov" = Ok R) /\
    cols R = cols W /\ rows R <= rows W /\ orthonormal (rows R) (cols R) (ent R) /\ (forall v, spans (rows R) (cols R) (ent R) v <-> spans (rows W) (cols W) (ent W) v).
Proof.
  intros L E (H1 & H2 & H3 & H4). exists (transpose (first_cols (cols W) (orth (transpose W)))). split; [|split; [|split; [|split]]].
  - intros fuel n op F. unfold get_ext_wfns. cbn [cols transpose]. apply Nat.leb_le in L. rewrite L. cbn -[search transpose first_cols]. rewrite first_pass by auto. reflexivity.
  - cbn. exact E.
  - cbn. lia.
  - cbn [rows cols ent transpose first_cols]. rewrite E, Nat.min_r by lia. exact H3.
  - cbn [rows cols ent transpose first_cols]. rewrite E, Nat.min_r by lia. exact H4.
Qed.

(** So nothing is added: with fewer wave functions than states asked for, the result never has
    the number asked for. *)
Theorem C97_extension_refuted W fuel n_states op R : rows W < n_states -> rows (orth (transpose W)) = cols W ->
  orth_columns (cols W) (rows W) (ent (transpose W)) (cols (orth (transpose W))) (ent (orth (transpose W))) ->
  get_ext_wfns orth fuel n_states W op "krylov" = Ok R -> rows R < n_states.
Proof.
  intros L E O H. assert (F : 1 <= fuel /\ rows W <= cols W).
  { unfold get_ext_wfns in H. destruct (cols (transpose W) <=? cols W) eqn:Q; cbn -[search] in H; [|discriminate]. apply Nat.leb_le in Q. split; auto. destruct fuel; [discriminate|lia]. }
  destruct (C97_basis W (proj2 F) E O) as (R' & H1 & _ & H2 & _). rewrite (H1 fuel n_states op (proj1 F)) in H. injection H as <-. lia.
Qed.

(** More wave functions than components are refused, and after that every other method. *)
Theorem C97_refuses W fuel n_states op s : (cols W < rows W -> get_ext_wfns orth fuel n_states W op s = Raise AssertionError) /\
  (rows W <= cols W -> s <> "krylov"%string -> get_ext_wfns orth fuel n_states W op s = Raise NotImplementedError).
Proof.
  unfold get_ext_wfns. cbn [cols transpose]. split; intros L.
  - apply Nat.leb_gt in L. now rewrite L.
  - intros N. apply Nat.leb_le in L. rewrite L. apply String.eqb_neq in N. now rewrite N.
Qed.
End Ext.
Print Assumptions C97_basis.
Print Assumptions C97_extension_refuted.
Print Assumptions C97_refuses.

(** One wave function of three components: it comes back, though two are asked for and the operator
    would give another. *)
Definition w97 : mat G_star := @mkMat G_star 1 3 (fun _ k => if k =? 1 then (0, 1)%Z else (0, 0)%Z).
Definition op97 : mat G_star := @mkMat G_star 3 3 (fun i j => if i + j =? 3 then (1, 0)%Z else (0, 0)%Z).
Example C97_example : rows w97 <= cols w97 /\ rows w97 < 2 /\ orth_columns (cols w97) (rows w97) (ent (transpose w97)) (cols (transpose w97)) (ent (transpose w97)) /\
  exists R, get_ext_wfns (fun A => A) 1 2 w97 op97 "krylov" = Ok R /\ rows R = 1 /\ ent R 0 1 = (0, 1)%Z :> G_star.
Proof.
  split; [cbn; lia|]. split; [cbn; lia|]. split; [|eexists; repeat split].
  split; [cbn; lia|]. split; [cbn; lia|]. split; [|reflexivity].
  intros [|i] [|j] Hi Hj; cbn in *; try lia. reflexivity.
Qed.
