(** Property C08. *)
From Coq Require Import String List Arith ZArith Bool Lia.
From Verif Require Import Py Alg ListX NdArray_Model Net_Model Net_Spec Vec_Spec Vec_Proof Env_Prop Acyc_Proof.
Import ListNotations.
Local Open Scope nat_scope.
Open Scope list_scope.

(** [vectorize] writes the arrays one after the other in visitor order. *)
Theorem C08_vectorize :
  forall (K : StarRing) (h : heap K) t fuel A aux,
    hangs h None t -> oaxis (hget h (top t)) = None -> height t <= fuel ->
    (forall n, In n (nids t) -> which aux (hget h n) = Some (A n)) ->
    vectorize fuel h (top t) aux = Ok (concat (map (fun n => data (A n)) (nids t))).
Proof. exact vectorize_ok. Qed.
Print Assumptions C08_vectorize.

(** A leaf with nothing below it has no arrays to write. *)
Theorem C08_lone_leaf :
  forall (K : StarRing) (h : heap K) n fuel aux,
    oleaf (hget h n) = true -> (forall a i x, oaxis (hget h n) = Some a -> In (i, x) (oacc (hget h n)) -> i = a) ->
    vectorize (S fuel) h n aux = Raise ValueError.
Proof.
  intros K h n fuel aux L Ax. unfold vectorize. cbn [visitor]. replace (children h n (oaxis (hget h n)) false) with (@nil (nat * id * nat)).
  - rewrite L. reflexivity.
  - unfold children. rewrite L. destruct (oaxis (hget h n)) as [a|]; [|reflexivity]. cbn [is_none andb]. symmetry.
    apply Acyc_Proof.filter_none. intros [[i g] j] Hi. unfold linkages in Hi. apply in_map_iff in Hi as ([k x] & Q & Hk). injection Q as <- <- <-.
    apply (Ax a) in Hk as ->; auto. cbn [fst]. unfold is_axis. rewrite Nat.eqb_refl. reflexivity.
Qed.
Print Assumptions C08_lone_leaf.

(** Each tensor owns one slice, slices do not overlap and lie inside the vector. *)
Theorem C08_slice_of_tensor :
  forall (K : StarRing) (A : id -> arr K) t n,
    (forall n, In n (nids t) -> wf (A n)) -> In n (nids t) ->
    slice (concat (map (fun n => data (A n)) (nids t))) (offset (asize A) (nids t) n) (asize A n) = data (A n).
Proof. exact vec_slices. Qed.
Print Assumptions C08_slice_of_tensor.

Theorem C08_slices_disjoint :
  forall sz (l : list id) n m, NoDup l -> In n l -> In m l -> n <> m ->
    offset sz l n + sz n <= offset sz l m \/ offset sz l m + sz m <= offset sz l n.
Proof. exact offset_disjoint. Qed.
Print Assumptions C08_slices_disjoint.

Theorem C08_slices_inside :
  forall sz (l : list id) n, In n l -> offset sz l n + sz n <= total sz l.
Proof. exact offset_bound. Qed.
Print Assumptions C08_slices_inside.

(** [tensorize] gives each tensor its slice, with its old shape, and changes nothing else. *)
Theorem C08_tensorize :
  forall (K : StarRing) (h : heap K) t fuel A aux v,
    hangs h None t -> no_self_slot h -> oaxis (hget h (top t)) = None -> height t <= fuel ->
    (forall n, In n (nids t) -> oarr (hget h n) = Some (A n)) -> total (asize A) (nids t) <= length v ->
    exists h', tensorize fuel h (top t) v aux = Ok h' /\ length h' = length h /\
      (forall n, In n (nids t) ->
         hget h' n = put_which aux (mkArr (shape (A n)) (slice v (offset (asize A) (nids t) n) (asize A n))) (hget h n)) /\
      (forall n, ~ In n (nids t) -> hget h' n = hget h n).
Proof. exact tensorize_ok. Qed.
Print Assumptions C08_tensorize.

Theorem C08_tensorize_vectorize :
  forall (K : StarRing) (h : heap K) t fuel A aux,
    hangs h None t -> no_self_slot h -> oaxis (hget h (top t)) = None -> height t <= fuel ->
    (forall n, In n (nids t) -> oarr (hget h n) = Some (A n)) ->
    (forall n, In n (nids t) -> exists b, which aux (hget h n) = Some b /\ wf b /\ shape b = shape (A n)) ->
    exists v, vectorize fuel h (top t) aux = Ok v /\ tensorize fuel h (top t) v aux = Ok h.
Proof. exact tensorize_vectorize. Qed.
Print Assumptions C08_tensorize_vectorize.

Theorem C08_vectorize_tensorize :
  forall (K : StarRing) (h : heap K) t fuel A aux v,
    hangs h None t -> no_self_slot h -> oaxis (hget h (top t)) = None -> height t <= fuel ->
    (forall n, In n (nids t) -> oarr (hget h n) = Some (A n)) -> length v = total (asize A) (nids t) ->
    exists h', tensorize fuel h (top t) v aux = Ok h' /\ vectorize fuel h' (top t) aux = Ok v.
Proof. exact vectorize_tensorize. Qed.
Print Assumptions C08_vectorize_tensorize.

Theorem C08_tail_ignored :
  forall (K : StarRing) (h : heap K) t fuel A aux v w,
    hangs h None t -> no_self_slot h -> oaxis (hget h (top t)) = None -> height t <= fuel ->
    (forall n, In n (nids t) -> oarr (hget h n) = Some (A n)) -> length v = total (asize A) (nids t) ->
    tensorize fuel h (top t) (v ++ w) aux = tensorize fuel h (top t) v aux.
Proof. exact tensorize_tail. Qed.
Print Assumptions C08_tail_ignored.

Theorem C08_short_vector_raises :
  forall (K : StarRing) (h : heap K) t fuel A aux v,
    hangs h None t -> no_self_slot h -> oaxis (hget h (top t)) = None -> height t <= fuel ->
    (forall n, In n (nids t) -> oarr (hget h n) = Some (A n)) -> length v < total (asize A) (nids t) ->
    tensorize fuel h (top t) v aux = Raise ValueError.
Proof. exact tensorize_short. Qed.
Print Assumptions C08_short_vector_raises.

Definition ex_vec : list G_star := map (fun k => g (Z.of_nat k) 0) (seq 0 10).
Example C08_example :
  hangs (ex_heap true None) None ex_t /\ no_self_slot (ex_heap true None) /\
  (forall n, In n (nids ex_t) -> oarr (hget (ex_heap true None) n) = Some (ex_a n) /\ wf (ex_a n)) /\
  total (asize ex_a) (nids ex_t) = 10 /\ offset (asize ex_a) (nids ex_t) 1 = 6 /\
  (match tensorize 3 (ex_heap true None) 0 (ex_vec ++ [g 7 7]) false with
   | Ok h => option_map data (oarr (hget h 1)) = Some [g 6 0; g 7 0; g 8 0; g 9 0] /\
             (match vectorize 3 h 0 false with Ok v => v = ex_vec | _ => False end)
   | _ => False end) /\
  (match tensorize 3 (ex_heap true None) 0 (firstn 9 ex_vec) false with Raise e => e = ValueError | _ => False end).
Proof.
  split; [apply ex_t_hangs|]. split; [apply ex_no_self|].
  split; [intros n [<-|[<-|[]]]; split; reflexivity|].
  repeat split; vm_compute; repeat split.
Qed.
