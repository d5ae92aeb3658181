(** Property C75. *)
From Coq Require Import String List Arith ZArith Bool Lia Ring.
From Verif Require Import Py Alg ListX NdArray_Model NdArray_Proof Net_Model Net_Spec Cache_Model Cache_Spec Eom_Spec
  Trav_Proof EnvThm_Proof Expect_Model Expect_Spec DenseH_Model DenseH_Proof Env_Prop Expect_Prop.
Import ListNotations.
Local Open Scope nat_scope.
Local Open Scope list_scope.

(** ** C75: the Hamiltonian as one matrix *)

(** Rows and columns are numbered like the entries of the full tensor of the state, leaves
    in the order of [root.leaves()]; the entry is the sum over the terms of the products
    of the entries of their matrices. *)
Theorem C75_dense_hamiltonian :
  forall (K : StarRing) F (h : heap K) R fuel A (terms : list (list (id * arr K))),
    let ds := ldims A None 0 R in
    hangs h None R -> no_self_slot h -> oaxis (hget h (top R)) = None -> height R <= fuel -> fits A None 0 R ->
    (forall n, In n (nids R) -> oarr (hget h n) = Some (A n)) ->
    (forall l, In l (lids R) -> exists p, dget (oacc (hget h l)) 0 = Some p) ->
    Forall (suits h R A) terms -> terms <> [] ->
    exists H, dense_hamiltonian fuel h (top R) terms (@None F) = Ok (Some H) /\
      is_matrix H (prod ds) (prod ds) /\
      forall v w, in_range v ds -> in_range w ds -> get H [ravel ds v; ravel ds w] = total terms R v w.
Proof. intros K F h R fuel A terms ds. exact (dense_hamiltonian_ok K h R fuel A terms). Qed.
Print Assumptions C75_dense_hamiltonian.

Section Sums.
Variable K : StarRing.
Add Ring Kr : (r_theory K).
Lemma sumL_nth {A} (d : A) (l : list A) (f : A -> K) : sumL l f = sumn (length l) (fun i => f (nth i l d)).
Proof.
  unfold sumn. induction l as [|x l IH]; [reflexivity|]. cbn [length seq]. rewrite !sumL_cons, IH. cbn [nth]. f_equal.
  rewrite <- seq_shift. unfold sumL. rewrite map_map. f_equal.
Qed.
Lemma ravel_nth sh i : i < prod sh -> in_range (nth i (indices sh) []) sh /\ ravel sh (nth i (indices sh) []) = i.
Proof.
  intros Hi. assert (Hin : In (nth i (indices sh) []) (indices sh)) by (apply nth_In; now rewrite length_indices).
  split; [now apply in_indices|]. transitivity (nth i (map (ravel sh) (indices sh)) (ravel sh [])); [symmetry; apply map_nth|].
  now rewrite map_ravel_indices, seq_nth.
Qed.
Lemma form_sum ds (x y : list nat -> K) (H : arr K) (f : list nat -> list nat -> K) :
  (forall v w, in_range v ds -> in_range w ds -> get H [ravel ds v; ravel ds w] = f v w) ->
  sumL (indices ds) (fun v => sumL (indices ds) (fun w => rmul (rmul (x v) (y w)) (f v w))) =
  sumn (prod ds) (fun i => sumn (prod ds) (fun j => rmul (rmul (nth i (map x (indices ds)) r0) (get H [i; j])) (nth j (map y (indices ds)) r0))).
Proof.
  intros G. rewrite (sumL_nth []), length_indices. apply sumn_ext. intros i Hi. rewrite (sumL_nth []), length_indices. apply sumn_ext. intros j Hj.
  destruct (ravel_nth ds i Hi) as (Ri & Ei). destruct (ravel_nth ds j Hj) as (Rj & Ej).
  rewrite <- (G _ _ Ri Rj), Ei, Ej.
  rewrite (nth_indep (map x (indices ds)) r0 (x [])), (nth_indep (map y (indices ds)) r0 (y [])) by (rewrite map_length, length_indices; auto).
  rewrite !map_nth. ring.
Qed.
End Sums.

(** [matrix_element] (C68) as a form on the flattened full tensors: the rows of the matrix
    belong to [A], the columns to [B].  For an expectation value [B] holds the conjugated
    arrays, so that the matrix of the operator in [<psi|H|psi>] is the transposed one. *)
Theorem C75_matrix_element :
  forall (K : StarRing) T (sys : system K T) fuel (s : state K) R A B time,
    let ds := ldims A None 0 R in let h := sheap K s in
    hangs h None R -> top R = sroot K s -> no_self_slot h -> oaxis (hget h (top R)) = None -> height R <= fuel ->
    fits A None 0 R -> fits B None 0 R -> ldims B None 0 R = ds ->
    (forall n, In n (nids R) -> oarr (hget h n) = Some (A n) /\ oaux (hget h n) = Some (B n)) ->
    (forall l, In l (lids R) -> exists p, dget (oacc (hget h l)) 0 = Some p) ->
    Forall (suits h R A) (h_list K T sys) -> h_list K T sys <> [] -> f_list K T sys = None ->
    exists H, dense_hamiltonian fuel h (sroot K s) (h_list K T sys) (f_list K T sys) = Ok (Some H) /\
      result (ml_matrix_element K T sys fuel None time s) =
      Ok (sumn (prod ds) (fun i => sumn (prod ds) (fun j =>
            rmul (rmul (nth i (map (dense A R) (indices ds)) r0) (get H [i; j])) (nth j (map (dense B R) (indices ds)) r0)))).
Proof.
  intros K T sys fuel s R A B time ds h H Et NS Ax Hf FA FB DB N L Su Ne Ef.
  rewrite <- Et, Ef.
  destruct (dense_hamiltonian_ok K (F := list (list (id * (T -> arr K)))) h R fuel A (h_list K T sys)) as (M & EM & _ & GM); auto.
  { intros n Hn. now apply N. }
  exists M. split; auto. rewrite (C68_matrix_element K T sys fuel s R A B None time) by (auto; unfold terms_at; rewrite Ef, ?app_nil_r; auto).
  f_equal. unfold terms_at. rewrite Ef. rewrite ?app_nil_r. fold ds in GM.
  rewrite <- (form_sum K ds (dense A R) (dense B R) M (total (h_list K T sys) R) GM).
  unfold element. rewrite DB. fold ds. rewrite sumL_swap. apply sumL_ext. intros v. rewrite sumL_swap. apply sumL_ext. intros w.
  unfold total. now rewrite sumL_scal_l.
Qed.
Print Assumptions C75_matrix_element.

(** The matrix equals [sg] times its adjoint exactly when the sum of the terms does, the
    condition of C66, C67 and C68. *)
Theorem C75_adjoint :
  forall (K : StarRing) F (h : heap K) R fuel A (terms : list (list (id * arr K))) (sg : K) H,
    let ds := ldims A None 0 R in
    hangs h None R -> no_self_slot h -> oaxis (hget h (top R)) = None -> height R <= fuel -> fits A None 0 R ->
    (forall n, In n (nids R) -> oarr (hget h n) = Some (A n)) ->
    (forall l, In l (lids R) -> exists p, dget (oacc (hget h l)) 0 = Some p) ->
    Forall (suits h R A) terms ->
    dense_hamiltonian fuel h (top R) terms (@None F) = Ok (Some H) ->
    (adjoint_to sg terms A R <-> forall i j, i < prod ds -> j < prod ds -> get H [i; j] = rmul sg (rconj (get H [j; i]))).
Proof.
  intros K F h R fuel A terms sg H ds Hh NS Ax Hf FA N L Su E.
  assert (Ne : terms <> []).
  { intros ->. unfold dense_hamiltonian in E. destruct (leaves fuel h (top R)) as [ls|]; cbn [bind] in E; [|discriminate].
    destruct (mapM (leaf_dim h) ls); cbn [bind dense_sum] in E; discriminate. }
  destruct (dense_hamiltonian_ok K (F := F) h R fuel A terms Hh NS Ax Hf FA N L Su Ne) as (H' & E' & _ & G).
  rewrite E in E'. inversion E'; subst H'. fold ds in G. unfold adjoint_to. fold ds. split.
  - intros Ad i j Hi Hj. destruct (ravel_nth ds i Hi) as (Ri & Ei). destruct (ravel_nth ds j Hj) as (Rj & Ej).
    rewrite <- Ei, <- Ej, !G by auto. apply Ad; now apply in_indices.
  - intros Q v w Hv Hw. apply in_indices in Hv, Hw. rewrite <- !G by auto. apply Q; now apply ravel_lt.
Qed.
Print Assumptions C75_adjoint.

(** Time-dependent terms are refused; without terms the answer is the number zero; a leaf
    that is linked by another axis than its axis 0 is not found. *)
Theorem C75_other_outcomes :
  forall (K : StarRing) F (h : heap K) R fuel A,
    hangs h None R -> no_self_slot h -> oaxis (hget h (top R)) = None -> height R <= fuel -> fits A None 0 R ->
    (forall n, In n (nids R) -> oarr (hget h n) = Some (A n)) ->
    (forall terms (f : F), dense_hamiltonian fuel h (top R) terms (Some f) = Raise NotImplementedError) /\
    ((forall l, In l (lids R) -> exists p, dget (oacc (hget h l)) 0 = Some p) ->
       dense_hamiltonian fuel h (top R) [] (@None F) = Ok None) /\
    (forall l ls terms, lids R = l :: ls -> dget (oacc (hget h l)) 0 = None ->
       dense_hamiltonian fuel h (top R) terms (@None F) = Raise KeyError).
Proof.
  intros K F h R fuel A Hh NS Ax Hf FA N. split; [reflexivity|]. split.
  - intros L. unfold dense_hamiltonian. rewrite leaves_ok by auto. cbn [bind].
    rewrite (dims_ok K h A R None 0) by (auto; inversion Hh; reflexivity). reflexivity.
  - intros l ls terms E D. unfold dense_hamiltonian. rewrite leaves_ok by auto. cbn [bind]. rewrite E. cbn [mapM].
    unfold leaf_dim, dindex. rewrite D. reflexivity.
Qed.
Print Assumptions C75_other_outcomes.

(** Two terms on the network of Env_Prop.v, with leaves of dimensions 2, 1 and 3. *)
Definition dh_m : arr G_star := mkArr [2; 2] [g 1 0; g 0 1; g 2 0; g 3 0].
Definition dh_n : arr G_star := mkArr [3; 3] [g 0 0; g 1 0; g 0 0; g 0 0; g 0 0; g 1 0; g 0 0; g 0 0; g 5 0].
Definition dh_terms : list (list (id * arr G_star)) := [[(4, dh_n); (2, dh_n); (2, dh_m)]; [(2, dh_m)]].
Example C75_example :
  let h := ex_heap true None in
  hangs h None ex_t /\ no_self_slot h /\ fits ex_a None 0 ex_t /\ Forall (suits h ex_t ex_a) dh_terms /\
  (forall l, In l (lids ex_t) -> exists p, dget (oacc (hget h l)) 0 = Some p) /\
  exists H, dense_hamiltonian 3 h 0 dh_terms (@None unit) = Ok (Some H) /\ shape H = [6; 6] /\
    firstn 6 (data H) = [g 1 0; g 1 0; g 0 0; g 0 1; g 0 1; g 0 0] /\ get H [5; 5] = g 18 0.
Proof.
  cbv zeta. split; [apply ex_t_hangs|]. split; [apply ex_no_self|]. split; [apply ex_t_fits|]. split; [|split].
  - assert (X : forall t, In t dh_terms -> suits (ex_heap true None) ex_t ex_a t).
    { intros t [<-|[<-|[]]]; (split; [intros l m H; cbn in H; repeat (destruct H as [H|H]; [inversion H; subst; reflexivity|]); destruct H|]);
      cbn; repeat constructor. }
    apply Forall_forall. exact X.
  - intros l [<-|[<-|[<-|[]]]]; eexists; reflexivity.
  - eexists. split; [reflexivity|]. repeat split; vm_compute; reflexivity.
Qed.
