(** Properties C04, C05, C06, C07. *)
From Coq Require Import String List Arith ZArith Bool Lia.
From Verif Require Import Py Alg ListX NdArray_Model Contract_Spec Net_Model Net_Spec Env_Spec
  Trav_Proof EnvThm_Proof.
Import ListNotations.
Local Open Scope nat_scope.
Open Scope list_scope.

(** A network over the Gaussian integers: root 0 with shape (2, 3), below it 1 with
    shape (2, 2, 1), leaves 2 and 3 of 1, leaf 4 of 0. *)
Definition g (a b : Z) : G_star := (a, b).
Definition ex_a (n : nat) : arr G_star :=
  match n with
  | 0 => mkArr [2; 3] [g 1 0; g 0 1; g 2 0; g 0 0; g 1 1; g 0 (-1)]
  | _ => mkArr [2; 2; 1] [g 1 0; g 0 0; g 0 0; g 0 1]
  end.
Definition ex_heap (flag : bool) (m : option (arr G_star)) : heap G_star :=
  [mkObj (Some "0"%string) false (Some (ex_a 0)) (Some (ex_a 0)) None false [(0, (1, 0)); (1, (4, 0))] [];
   mkObj (Some "1"%string) false (Some (ex_a 1)) (Some (ex_a 1)) (Some 0) flag [(0, (0, 0)); (1, (2, 0)); (2, (3, 0))] [];
   mkObj (Some "2"%string) true m None None false [(0, (1, 1))] [];
   mkObj (Some "3"%string) true None None None false [(0, (1, 2))] [];
   mkObj (Some "4"%string) true None None None false [(0, (0, 1))] []].
Definition ex_sub : tree := Nd 1 [(1, Lf 2, 0); (2, Lf 3, 0)].
Definition ex_t : tree := Nd 0 [(0, ex_sub, 0); (1, Lf 4, 0)].

Lemma ex_sub_hangs f m : hangs (ex_heap f m) (Some (0, (0, 0))) ex_sub.
Proof.
  apply (hangs_node _ _ 1 0 (0, 0) [] [(1, Lf 2, 0); (2, Lf 3, 0)]); [reflexivity|reflexivity| |].
  - cbn. repeat constructor; cbn; intuition discriminate.
  - repeat constructor.
Qed.
Lemma ex_t_hangs f m : hangs (ex_heap f m) None ex_t.
Proof.
  apply hangs_root; [reflexivity|reflexivity| |].
  - cbn. repeat constructor; cbn; intuition discriminate.
  - repeat constructor. apply ex_sub_hangs.
Qed.
Lemma ex_no_self f m : no_self_slot (ex_heap f m).
Proof.
  intros n i H. destruct n as [|[|[|[|[|n]]]]]; cbn in H; try (destruct n; exact H);
  repeat (destruct H as [H|H]; [inversion H|]); exact H.
Qed.
Lemma ex_sub_fits : fits ex_a (Some 0) 2 ex_sub.
Proof. constructor; [reflexivity|repeat constructor|cbn; lia|reflexivity|repeat constructor]. Qed.
Lemma ex_t_fits : fits ex_a None 0 ex_t.
Proof.
  constructor; [reflexivity|repeat constructor|exact I|reflexivity|].
  constructor; [apply ex_sub_fits|repeat constructor].
Qed.

(** The value returned, as shape and entries. *)
Definition value {K : StarRing} (r : res (option (arr K) * heap K)) : option (option (list nat * list K)) :=
  match r with Ok (v, _) => Some (option_map (fun a => (shape a, data a)) v) | Raise _ => None end.

(** ** C04: inner products *)
Theorem C04_global_inner_product :
  forall (K : StarRing) (h : heap K) t fuel A B,
    hangs h None t -> no_self_slot h -> oaxis (hget h (top t)) = None -> height t <= fuel ->
    fits A None 0 t -> fits B None 0 t -> ldims A None 0 t = ldims B None 0 t ->
    (forall n, In n (nids t) -> oarr (hget h n) = Some (A n) /\ oaux (hget h n) = Some (B n)) ->
    exists c h', global_inner_product fuel h (top t) = Ok (Some c, h') /\ shape c = [] /\
      get c [] = sumL (indices (ldims A None 0 t)) (fun v => rmul (dense A t v) (dense B t v)).
Proof. exact inner_product_ok. Qed.
Print Assumptions C04_global_inner_product.

Theorem C04_global_square :
  forall (K : StarRing) (h : heap K) t fuel A,
    hangs h None t -> no_self_slot h -> oaxis (hget h (top t)) = None -> height t <= fuel ->
    fits A None 0 t -> (forall n, In n (nids t) -> oarr (hget h n) = Some (A n)) ->
    exists c h', global_square fuel h (top t) = Ok (Some c, h') /\ shape c = [] /\
      get c [] = sumL (indices (ldims A None 0 t)) (fun v => rmul (dense A t v) (rconj (dense A t v))).
Proof. exact global_square_ok. Qed.
Print Assumptions C04_global_square.

Example C04_example :
  hangs (ex_heap true None) None ex_t /\ no_self_slot (ex_heap true None) /\ fits ex_a None 0 ex_t /\
  ldims ex_a None 0 ex_t = [2; 1; 3] /\ dense ex_a ex_t [1; 0; 1] = g (-1) 1 /\
  value (global_square 3 (ex_heap true None) 0) = Some (Some ([], [g 9 0])) /\
  value (global_inner_product 3 (ex_heap true None) 0) = Some (Some ([], [g 5 (-2)])).
Proof.
  split; [apply ex_t_hangs|]. split; [apply ex_no_self|]. split; [apply ex_t_fits|].
  repeat split; vm_compute; reflexivity.
Qed.

(** ** C05: matrix elements *)
Theorem C05_matrix_element :
  forall (K : StarRing) (h : heap K) t fuel A B,
    hangs h None t -> no_self_slot h -> oaxis (hget h (top t)) = None -> height t <= fuel ->
    fits A None 0 t -> fits B None 0 t ->
    (forall n, In n (nids t) -> oarr (hget h n) = Some (A n) /\ oaux (hget h n) = Some (B n)) ->
    Forall2 (fun l d => leaf_fits h false l (fst d) (snd d)) (lids t)
      (combine (ldims A None 0 t) (ldims B None 0 t)) ->
    exists c h', matrix_element fuel h (top t) = Ok (Some c, h') /\ shape c = [] /\
      get c [] = sumL (indices (ldims A None 0 t)) (fun v => sumL (indices (ldims B None 0 t)) (fun w =>
        rmul (rmul (dense A t v) (dense B t w))
             (prodL (lids t) (fun l => lmat h false l (asg (lids t) v l) (asg (lids t) w l))))).
Proof. exact matrix_element_ok. Qed.
Print Assumptions C05_matrix_element.

Theorem C05_expection :
  forall (K : StarRing) (h : heap K) t fuel A,
    hangs h None t -> no_self_slot h -> oaxis (hget h (top t)) = None -> height t <= fuel ->
    fits A None 0 t -> (forall n, In n (nids t) -> oarr (hget h n) = Some (A n)) ->
    Forall2 (fun l d => leaf_fits h false l d d) (lids t) (ldims A None 0 t) ->
    exists c h', expection fuel h (top t) = Ok (Some c, h') /\ shape c = [] /\
      get c [] = sumL (indices (ldims A None 0 t)) (fun v => sumL (indices (ldims A None 0 t)) (fun w =>
        rmul (rmul (dense A t v) (rconj (dense A t w)))
             (prodL (lids t) (fun l => lmat h false l (asg (lids t) v l) (asg (lids t) w l))))).
Proof. exact expection_ok. Qed.
Print Assumptions C05_expection.

(** The documented form: row indices belong to the conjugated state. *)
Definition documented {K : StarRing} (A : nat -> arr K) (M : nat -> nat -> nat -> K) (t : tree) : K :=
  sumL (indices (ldims A None 0 t)) (fun v => sumL (indices (ldims A None 0 t)) (fun w =>
    rmul (rmul (rconj (dense A t w))
         (prodL (lids t) (fun l => M l (asg (lids t) w l) (asg (lids t) v l)))) (dense A t v))).

Theorem C05_symmetric_matrices :
  forall (K : StarRing) (h : heap K) t fuel A,
    hangs h None t -> no_self_slot h -> oaxis (hget h (top t)) = None -> height t <= fuel ->
    fits A None 0 t -> (forall n, In n (nids t) -> oarr (hget h n) = Some (A n)) ->
    Forall2 (fun l d => leaf_fits h false l d d) (lids t) (ldims A None 0 t) ->
    (forall l p q, In l (lids t) -> lmat h false l p q = lmat h false l q p) ->
    exists c h', expection fuel h (top t) = Ok (Some c, h') /\ shape c = [] /\
      get c [] = documented A (lmat h false) t.
Proof.
  intros K h t fuel A H NS Ax Hf FA N L Sy.
  destruct (expection_ok K h t fuel A H NS Ax Hf FA N L) as (c & h' & E & S & G).
  exists c, h'. split; auto. split; auto. rewrite G. apply expection_sym; auto.
Qed.
Print Assumptions C05_symmetric_matrices.

Definition sigma_y : arr G_star := mkArr [2; 2] [g 0 0; g 0 (-1); g 0 1; g 0 0].

Theorem C05_differs_for_a_hermitian_matrix :
  exists (h : heap G_star) t fuel A c h',
    hangs h None t /\ no_self_slot h /\ oaxis (hget h (top t)) = None /\ height t <= fuel /\
    fits A None 0 t /\ (forall n, In n (nids t) -> oarr (hget h n) = Some (A n)) /\
    Forall2 (fun l d => leaf_fits h false l d d) (lids t) (ldims A None 0 t) /\
    (forall l p q, In l (lids t) -> p < 2 -> q < 2 -> lmat h false l q p = rconj (lmat h false l p q)) /\
    expection fuel h (top t) = Ok (Some c, h') /\ get c [] <> documented A (lmat h false) t.
Proof.
  assert (E : value (expection 3 (ex_heap false (Some sigma_y)) 0) = Some (Some ([], [g (-2) 0]))) by (vm_compute; reflexivity).
  destruct (expection 3 (ex_heap false (Some sigma_y)) 0) as [[[c|] h']|] eqn:Ee; try discriminate.
  assert (Ed : data c = [g (-2) 0]) by (cbn [value option_map] in E; congruence).
  assert (Es : shape c = []) by (cbn [value option_map] in E; congruence).
  exists (ex_heap false (Some sigma_y)), ex_t, 3, ex_a, c, h'.
  split; [apply ex_t_hangs|]. split; [apply ex_no_self|]. split; [reflexivity|]. split; [cbn; lia|].
  split; [apply ex_t_fits|].
  split; [intros n [<-|[<-|[]]]; reflexivity|].
  split; [repeat constructor|].
  split. { intros l p q [<-|[<-|[<-|[]]]] Hp Hq; destruct p as [|[|p]]; destruct q as [|[|q]]; try lia; reflexivity. }
  split; [exact Ee|]. unfold get. rewrite Ed, Es.
  assert (D : documented ex_a (lmat (ex_heap false (Some sigma_y)) false) ex_t = g 2 0) by (vm_compute; reflexivity).
  rewrite D. vm_compute. discriminate.
Qed.
Print Assumptions C05_differs_for_a_hermitian_matrix.

Definition sigma_x : arr G_star := mkArr [2; 2] [g 0 0; g 1 0; g 1 0; g 5 0].
Example C05_example :
  Forall2 (fun l d => leaf_fits (ex_heap false (Some sigma_x)) false l d d) (lids ex_t) (ldims ex_a None 0 ex_t) /\
  value (expection 3 (ex_heap false (Some sigma_x)) 0) = Some (Some ([], [documented ex_a (lmat (ex_heap false (Some sigma_x)) false) ex_t])) /\
  documented ex_a (lmat (ex_heap false (Some sigma_x)) false) ex_t = g 21 0.
Proof.
  split; [repeat constructor|]. split; vm_compute; reflexivity.
Qed.

(** ** C06: stored environments *)
Theorem C06_queries_after_reset :
  forall (K : StarRing) (h : heap K) t fuel qs,
    hangs h None t -> length (ids t) <= fuel ->
    (forall n i, In (n, i) qs -> In n (ids t) /\ forall k, i = Some k -> exists x, In (k, x) (oacc (hget h n))) ->
    match queries fuel (reset_all h) qs with Ok (vs, _) => Ok vs | Raise e => Raise e end = fresh fuel h qs.
Proof. exact queries_fresh. Qed.
Print Assumptions C06_queries_after_reset.

Theorem C06_old_value_without_reset :
  forall (K : StarRing) fuel (h : heap K) n k v a,
    oleaf (hget h n) = false -> dget (ocache (hget h n)) k = Some v ->
    exists h', partial_env (S fuel) false (modify h n (put_arr (Some a))) n (Some k) = Ok (v, h').
Proof. exact stale_read. Qed.
Print Assumptions C06_old_value_without_reset.

Definition ex_qs : list (nat * option nat) := [(1, Some 0); (0, Some 1); (1, Some 0); (1, Some 2); (0, None); (4, Some 0)].
Example C06_example :
  hangs (ex_heap false None) None ex_t /\ length (ids ex_t) <= 5 /\
  match queries 5 (reset_all (ex_heap false None)) ex_qs with
  | Ok (vs, h') => map (option_map data) vs =
      [Some [g 1 0; g 0 0; g 0 0; g 1 0];
       Some [g 1 0; g 0 (-1); g 2 0; g 0 1; g 3 0; g (-1) 3; g 2 0; g (-1) (-3); g 5 0];
       Some [g 1 0; g 0 0; g 0 0; g 1 0]; Some [g 9 0]; Some [g 9 0]; None] /\
      map fst (ocache (hget h' 1)) = [0; 2]
  | Raise _ => False
  end.
Proof.
  split; [apply ex_t_hangs|]. split; [cbn; lia|].
  vm_compute. repeat split.
Qed.
(** The old value is wrong once the array has changed. *)
Example C06_example_stale :
  let h1 := match partial_env 5 false (ex_heap false None) 1 (Some 0) with Ok (_, h) => h | _ => [] end in
  let h2 := modify h1 1 (put_arr (Some (mkArr [2; 2; 1] [g 2 0; g 0 0; g 0 0; g 0 1]))) in
  value (partial_env 5 false h2 1 (Some 0)) = Some (Some ([2; 2], [g 1 0; g 0 0; g 0 0; g 1 0])) /\
  value (partial_env 5 false (reset_all h2) 1 (Some 0)) = Some (Some ([2; 2], [g 4 0; g 0 0; g 0 0; g 1 0])).
Proof. split; vm_compute; reflexivity. Qed.

(** ** C07: the shortcut *)

(** Whatever is returned stands for the environment matrix, [None] for the identity:
    flagged tensors have orthonormal rows along their parent axis, leaves may carry
    matrices, other tensors are arbitrary. *)
Theorem C07_result_is_environment :
  forall (K : StarRing) (h : heap K) t j p fuel A d,
    hangs h (Some (j, p)) t -> height t <= fuel -> NoDup (lids t) -> fits A (Some j) d t ->
    (forall n, In n (nids t) -> oarr (hget h n) = Some (A n) /\
       (onorm (hget h n) = true -> unit_along (A n) (oaxis (hget h n)))) ->
    Forall2 (fun l d => leaf_fits h false l d d) (lids t) (ldims A (Some j) d t) ->
    exists r h', partial_env fuel false (reset_all h) (top t) (Some j) = Ok (r, h') /\
      stands_for r d (env_dense A (fun n => arr_conj (A n)) (lmat h false) (Some j) d d t).
Proof. exact env_stands. Qed.
Print Assumptions C07_result_is_environment.

Theorem C07_taken_exactly_when :
  forall (K : StarRing) (h : heap K) t j p fuel r h',
    hangs h (Some (j, p)) t -> height t <= fuel ->
    partial_env fuel false (reset_all h) (top t) (Some j) = Ok (r, h') -> (r = None <-> skips h j t).
Proof. exact shortcut_iff. Qed.
Print Assumptions C07_taken_exactly_when.

Example C07_example :
  hangs (ex_heap true None) (Some (0, (0, 0))) ex_sub /\ fits ex_a (Some 0) 2 ex_sub /\
  unit_along (ex_a 1) (Some 0) /\ skips (ex_heap true None) 0 ex_sub /\
  value (partial_env 2 false (reset_all (ex_heap true None)) 1 (Some 0)) = Some None /\
  value (partial_env 2 false (reset_all (ex_heap true (Some sigma_y))) 1 (Some 0)) = Some (Some ([2; 2], [g 0 0; g (-1) 0; g (-1) 0; g 0 0])) /\
  value (partial_env 2 false (reset_all (ex_heap false None)) 1 (Some 0)) = Some (Some ([2; 2], [g 1 0; g 0 0; g 0 0; g 1 0])).
Proof.
  split; [apply ex_sub_hangs|]. split; [apply ex_sub_fits|].
  split. { intros i i' Hi Hi'. cbn in Hi, Hi'. destruct i as [|[|i]]; destruct i' as [|[|i']]; try lia; reflexivity. }
  split. { repeat constructor. }
  repeat split; vm_compute; reflexivity.
Qed.
