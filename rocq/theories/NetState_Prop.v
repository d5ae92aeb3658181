(** C55 and C65: networks with separate arrays. *)
From Coq Require Import String List Arith Bool Lia ZArith.
From Verif Require Import Py Alg ListX NdArray_Model NdArray_Proof Net_Model Net_Spec Trav_Proof Acyc_Proof TEnv_Proof EnvThm_Proof Vec_Spec Vec_Proof NetState_Model NetState_Spec NetState_Proof.
Import ListNotations.
Notation length := Datatypes.length.
Local Open Scope nat_scope.
Local Open Scope list_scope.

(** ** C55: the constructor and the items *)
(** From any inner tensor the constructor finds the only tensor without axis, or gives up. *)
Theorem C55_constructor (K : StarRing) (h : heap K) t m fuel wfn :
  hangs h None t -> no_self_slot h -> In m (nids t) -> length (ids t) <= fuel ->
  (forall r, only_root h t r -> network K fuel h m wfn = Ok (mkNet r wfn)) /\
  ((forall r, ~ only_root h t r) -> network K fuel h m wfn = Raise NotImplementedError).
Proof. intros H NS Hm Hf. split; [intros r; apply (network_one K h t); auto|apply (network_other K h t); auto]. Qed.
Print Assumptions C55_constructor.
(** A leaf has no axis, so no network with a leaf is accepted. *)
Theorem C55_leaves_refuted (K : StarRing) (h : heap K) t m fuel wfn l :
  hangs h None t -> In m (nids t) -> length (ids t) <= fuel -> oaxis (hget h (top t)) = None -> In l (lids t) -> oaxis (hget h l) = None ->
  network K fuel h m wfn = Raise NotImplementedError.
Proof.
  intros H Hm Hf At Hl Al. apply (network_other K h t); auto. intros r (_ & _ & U).
  assert (I : In l (ids t) /\ oleaf (hget h l) = true) by (rewrite <- (filter_leaves K h None t H) in Hl; apply filter_In in Hl; auto). destruct I as (I & Lf).
  assert (E : l = top t). { rewrite (U l I Al), (U (top t)); auto. destruct t; left; reflexivity. }
  subst l. inversion H; subst; cbn [top] in *; congruence.
Qed.
Print Assumptions C55_leaves_refuted.
(** Except when the template is itself a leaf: then that leaf is the whole network. *)
Theorem C55_leaf_template (K : StarRing) (h : heap K) n fuel wfn : oleaf (hget h n) = true -> oaxis (hget h n) = None -> 1 <= fuel ->
  network K fuel h n wfn = Ok (mkNet n wfn) /\ vertices K fuel h (mkNet n wfn) = Ok [n].
Proof.
  intros L A Hf. destruct fuel as [|fuel]; [lia|]. unfold network, vertices. cbn [n_root]. rewrite A. cbn [visitor]. unfold children. rewrite L. cbn [is_none andb concatM bind orb negb app filter]. rewrite A. split; reflexivity.
Qed.
Print Assumptions C55_leaf_template.
(** An entry is set once. *)
Theorem C55_items (K : StarRing) (h : heap K) t fuel (N : net K) k a :
  hangs h None t -> no_self_slot h -> only_root h t (top t) -> length (ids t) <= fuel -> n_root N = top t ->
  (~ In k (ids t) -> forall v, getitem K fuel h N k = Raise KeyError /\ setitem K fuel h N k v = Raise KeyError) /\
  (In k (ids t) -> getitem K fuel h N k = Raise KeyError \/ getitem K fuel h N k = Ok VNone ->
    exists N', setitem K fuel h N k (VArr a) = Ok N' /\ n_root N' = top t /\ getitem K fuel h N' k = Ok (VArr a) /\
      (forall j, j <> k -> getitem K fuel h N' j = getitem K fuel h N j) /\ forall v, setitem K fuel h N' k v = Raise RuntimeError).
Proof.
  intros H NS RT Hf E. split.
  - intros I v. apply (items_out K h t); auto.
  - intros I G. rewrite (getitem_in K h t) in G by auto. rewrite (setitem_in K h t) by auto.
    exists (mkNet (top t) (dput (n_wfn N) k (VArr a))). split; [destruct (dget (n_wfn N) k) as [[| |]|]; try reflexivity; destruct G as [G|G]; discriminate G|]. split; [reflexivity|].
    split; [rewrite (getitem_in K h t) by auto; cbn [n_wfn]; rewrite dget_dput, Nat.eqb_refl; reflexivity|]. split.
    + intros j Nj. destruct (in_dec Nat.eq_dec j (ids t)) as [J|J].
      * rewrite !(getitem_in K h t) by auto. cbn [n_wfn]. rewrite dget_dput. destruct (Nat.eqb_spec j k); [contradiction|reflexivity].
      * rewrite (proj1 (items_out K h t fuel H RT Hf (mkNet (top t) (dput (n_wfn N) k (VArr a))) j VNone eq_refl J)), (proj1 (items_out K h t fuel H RT Hf N j VNone E J)). reflexivity.
    + intros v. rewrite (setitem_in K h t) by auto. cbn [n_wfn]. rewrite dget_dput, Nat.eqb_refl. reflexivity.
Qed.
Print Assumptions C55_items.

(** ** C65: vectors, copies and environments *)
Theorem C65_vectorize_tensorize (K : StarRing) (h : heap K) t fuel (N : net K) A v :
  hangs h None t -> no_self_slot h -> only_root h t (top t) -> length (ids t) <= fuel -> n_root N = top t ->
  (forall n, In n (ids t) -> oarr (hget h n) = Some (A n) /\ shape (A n) <> []) ->
  (length v = total (asize A) (ids t) -> exists M, tensorize_net K fuel h N v = Ok M /\ vectorize_net K fuel h M = Ok v) /\
  (length v < total (asize A) (ids t) -> tensorize_net K fuel h N v = Raise ValueError).
Proof.
  intros H NS RT Hf E HA. pose proof (tensorize_net_ok K h t fuel H NS RT Hf A HA N v E) as T. split; intros L.
  - rewrite (proj2 (Nat.leb_le _ _)) in T by lia. destruct T as (M & EM & RM & G). exists M. split; [exact EM|].
    rewrite (vectorize_net_ok K h t fuel H RT Hf A HA M _ RM G). f_equal. cbn [data].
    pose proof (concat_slices (asize A) v (ids t) (hangs_nodup K h t NS H) 0 ltac:(lia)) as C. cbn [Nat.add] in C. rewrite C, <- L. apply slice_cover.
  - rewrite (proj2 (Nat.leb_gt _ _)) in T by lia. exact T.
Qed.
Print Assumptions C65_vectorize_tensorize.
(** The other way round the arrays come back if they have the shapes of the tensors. *)
Theorem C65_tensorize_vectorize (K : StarRing) (h : heap K) t fuel (N : net K) A B :
  hangs h None t -> no_self_slot h -> only_root h t (top t) -> length (ids t) <= fuel -> n_root N = top t ->
  (forall n, In n (ids t) -> oarr (hget h n) = Some (A n) /\ shape (A n) <> []) ->
  (forall n, In n (ids t) -> getitem K fuel h N n = Ok (VArr (B n)) /\ wf (B n) /\ shape (B n) = shape (A n)) ->
  exists v M, vectorize_net K fuel h N = Ok v /\ tensorize_net K fuel h N v = Ok M /\ forall n, In n (ids t) -> getitem K fuel h M n = Ok (VArr (B n)).
Proof.
  intros H NS RT Hf E HA HB.
  assert (DB : forall n, In n (ids t) -> dget (n_wfn N) n = Some (VArr (B n))).
  { intros n I. destruct (HB n I) as (G & _). rewrite (getitem_in K h t) in G by auto. destruct (dget (n_wfn N) n); [injection G as ->; reflexivity|discriminate]. }
  assert (SZ : forall n, In n (ids t) -> asize A n = length (data (B n))) by (intros n I; destruct (HB n I) as (_ & W & S1); unfold asize; rewrite <- S1; symmetry; exact W).
  exists (concat (map (fun n => data (B n)) (ids t))). rewrite (vectorize_net_ok K h t fuel H RT Hf A HA N B E DB).
  pose proof (tensorize_net_ok K h t fuel H NS RT Hf A HA N (concat (map (fun n => data (B n)) (ids t))) E) as T.
  rewrite (proj2 (Nat.leb_le _ _)) in T by (rewrite total_concat, (total_ext _ _ _ SZ); lia). destruct T as (M & EM & RM & G). exists M. split; [reflexivity|]. split; [exact EM|].
  intros n I. rewrite (getitem_in K h t) by auto. rewrite G by auto. do 2 f_equal. destruct (HB n I) as (_ & W & S1). rewrite (offset_ext _ _ _ n SZ), SZ by auto. rewrite (offset_concat (fun n => data (B n)) (ids t) n I). rewrite <- S1. destruct (B n); reflexivity.
Qed.
Print Assumptions C65_tensorize_vectorize.
(** A copy has the same arrays, but of an empty template it cannot be filled any more. *)
Theorem C65_copy (K : StarRing) (h : heap K) t fuel (N : net K) :
  hangs h None t -> no_self_slot h -> only_root h t (top t) -> length (ids t) <= fuel -> n_root N = top t ->
  (exists M, copy K fuel h N = Ok M /\ n_root M = top t /\ forall k a, getitem K fuel h M k = Ok (VArr a) <-> getitem K fuel h N k = Ok (VArr a)) /\
  exists T M, as_template K fuel h N = Ok T /\ copy K fuel h T = Ok M /\ forall k v, In k (ids t) ->
    (exists T', setitem K fuel h T k v = Ok T') /\ setitem K fuel h M k v = Raise RuntimeError.
Proof.
  intros H NS RT Hf E.
  assert (Dm : forall (d : list (nat * value K)) k, dget (map (fun e => (fst e, np_array K (snd e))) d) k = option_map (np_array K) (dget d k)).
  { induction d as [|[x w] d IH]; intros k; [reflexivity|]. cbn [map dget fst snd]. destruct (k =? x); [reflexivity|apply IH]. }
  assert (CP : forall M, n_root M = top t -> copy K fuel h M = Ok (mkNet (top t) (map (fun e => (fst e, np_array K (snd e))) (n_wfn M)))).
  { intros M EM. unfold copy. rewrite EM, (network_one K h t (top t) fuel _ (top t)); auto. apply (top_inner K h t fuel H RT Hf). }
  split.
  - rewrite CP by auto. eexists. split; [reflexivity|]. split; [reflexivity|]. intros k a. destruct (in_dec Nat.eq_dec k (ids t)) as [I|I].
    + rewrite !(getitem_in K h t) by auto. cbn [n_wfn]. rewrite Dm. destruct (dget (n_wfn N) k) as [[| |]|]; cbn [option_map np_array]; split; congruence.
    + rewrite (proj1 (items_out K h t fuel H RT Hf (mkNet (top t) (map (fun e => (fst e, np_array K (snd e))) (n_wfn N))) k VNone eq_refl I)), (proj1 (items_out K h t fuel H RT Hf N k VNone E I)). split; congruence.
  - destruct (as_template_ok K h t fuel H NS RT Hf N E) as (T & ET & RTt & G). exists T. eexists. split; [exact ET|]. split; [apply CP; exact RTt|].
    intros k v I. pose proof (G k) as Gk. rewrite (proj2 (mem_iff k (ids t)) I) in Gk. split.
    + rewrite (setitem_in K h t) by auto. rewrite Gk. eexists. reflexivity.
    + rewrite (setitem_in K h t) by auto. cbn [n_wfn]. rewrite Dm, Gk. reflexivity.
Qed.
Print Assumptions C65_copy.
(** [Tree.partial_env] never returns. *)
Theorem C65_partial_env_refuted (K : StarRing) (h : heap K) fuel V one wfn pp pt operator conj (N : net K) :
  (exists e, tree_partial_env K fuel h V one wfn pp pt operator conj N = Raise e) /\
  forall t, hangs h None t -> only_root h t (top t) -> length (ids t) <= fuel -> n_root N = top t -> lids t = [] ->
    tree_partial_env K fuel h V one wfn pp pt operator conj N = Raise KeyError.
Proof.
  assert (KE : forall d n r, (forall e, In e d -> snd (fst e) <> None) -> match single_env K h V one wfn pp pt operator conj n d r None with Ok _ => False | Raise e => n = 0 \/ e = KeyError end).
  { intros d n r D. destruct n as [|n]; [left; reflexivity|]. cbn [single_env]. unfold eget. destruct (find _ d) as [e|] eqn:F; cbn [option_map].
    - apply find_some in F as (I & Ke). destruct (D e I). unfold key_eqb in Ke. cbn [snd] in Ke. apply andb_true_iff in Ke as (_ & Ke). destruct (snd (fst e)); [discriminate Ke|reflexivity].
    - right. reflexivity. }
  split.
  - unfold tree_partial_env. destruct (subleaves K fuel h N) as [ts|e]; cbn [bind]; [|eexists; reflexivity].
    assert (SE : forall n d u ax r, (forall e, In e d -> snd (fst e) <> None) -> ax <> None -> single_env K h V one wfn pp pt operator conj n d u ax = Ok r -> forall e, In e (snd r) -> snd (fst e) <> None).
    { induction n as [|n IH]; intros d u ax r D Ax; [discriminate|]. cbn [single_env]. destruct (eget V d (u, ax)); [intros Q; injection Q as <-; exact D|].
      destruct (access K h u ax) as [c|]; cbn [bind]; [|discriminate].
      assert (KS : forall l d rs, (forall e, In e d -> snd (fst e) <> None) -> kids_env V (fun d g k => single_env K h V one wfn pp pt operator conj n d g (Some k)) d l = Ok rs -> forall e, In e (snd rs) -> snd (fst e) <> None).
      { induction l as [|[[j g] k] l IHl]; intros d0 rs D0 Q; cbn [kids_env] in Q; [injection Q as <-; exact D0|]. destruct (single_env K h V one wfn pp pt operator conj n d0 g (Some k)) as [r0|] eqn:S0; cbn [bind] in Q; [|discriminate].
        destruct (kids_env V _ (snd r0) l) as [rs0|] eqn:K0; cbn [bind] in Q; [|discriminate]. injection Q as <-. cbn [snd]. eapply IHl; [|exact K0]. eapply IH; [exact D0| |exact S0]. discriminate. }
      destruct (oleaf (hget h (fst c))).
      - destruct operator as [op|]; [destruct (op (fst c)); cbn [bind]; [|discriminate]|cbn [bind]]; intros Q; injection Q as <-; cbn [snd fst]; intros e [<-|I]; auto.
      - destruct (kids_env V _ d _) as [ce|] eqn:EC; cbn [bind]; [|discriminate]. pose proof (KS _ _ _ D EC) as D'. destruct (_ && _); cbn [bind].
        + intros Q; injection Q as <-; cbn [snd fst]; intros e [<-|I]; auto.
        + destruct (wfn (fst c)); cbn [bind]; [|discriminate]. destruct (pps V pp _ _); cbn [bind]; [|discriminate]. destruct (match conj with None => _ | Some f => f (fst c) end); cbn [bind]; [|discriminate].
          destruct (pt _ _ _); cbn [bind]; [|discriminate]. intros Q; injection Q as <-; cbn [snd fst]; intros e [<-|I]; auto. }
    assert (LE : forall l d d', (forall e, In e d -> snd (fst e) <> None) -> env_loop K fuel h V one wfn pp pt operator conj d l = Ok d' -> forall e, In e d' -> snd (fst e) <> None).
    { induction l as [|[u i] l IHl]; intros d d' D Q; cbn [env_loop] in Q; [injection Q as <-; exact D|]. destruct (single_env K h V one wfn pp pt operator conj fuel d u (Some i)) as [r|] eqn:S0; cbn [bind] in Q; [|discriminate].
      eapply IHl; [|exact Q]. eapply SE; [exact D| |exact S0]. discriminate. }
    destruct (env_loop K fuel h V one wfn pp pt operator conj [] _) as [d|e] eqn:EL; cbn [bind]; [|eexists; reflexivity].
    assert (D : forall e, In e d -> snd (fst e) <> None) by (eapply LE; [|exact EL]; intros e []). specialize (KE d fuel (n_root N) D).
    destruct (single_env _ _ _ _ _ _ _ _ _ fuel d (n_root N) None); [destruct KE|]. eexists; reflexivity.
  - intros t H RT Hf E L. unfold tree_partial_env, subleaves, leaves_net. rewrite (vertices_ok K h t fuel H RT Hf N E). cbn [bind]. rewrite (filter_leaves K h None t H), L. cbn [mapM bind flat_map env_loop].
    specialize (KE [] fuel (n_root N) (fun e I => match I with end)). destruct (single_env _ _ _ _ _ _ _ _ _ fuel [] (n_root N) None); [destruct KE|]. cbn [bind]. destruct KE as [F0| ->]; [|reflexivity]. subst fuel. destruct t; cbn in Hf; lia.
Qed.
Print Assumptions C65_partial_env_refuted.

(** ** Examples: two tensors in a chain, and a tensor with a leaf *)
Definition h55 : heap Z_star :=
  [@mkObj Z_star None false (Some (@mkArr Z_star [2] [1; 2]%Z)) None None false [(0, (1, 0))] []; @mkObj Z_star None false (Some (@mkArr Z_star [2; 1] [3; 4]%Z)) None (Some 0) false [(0, (0, 0))] []].
Definition t55 : tree := Nd 0 [(0, Nd 1 [], 0)].
Definition a55 (n : nat) : arr Z_star := match n with 0 => @mkArr Z_star [2] [1; 2]%Z | _ => @mkArr Z_star [2; 1] [3; 4]%Z end.
Lemma h55_ok : hangs h55 None t55 /\ no_self_slot h55 /\ only_root h55 t55 (top t55).
Proof.
  split; [|split].
  - apply hangs_root; [reflexivity|reflexivity|repeat constructor; cbn; intuition discriminate|]. constructor; [|constructor].
    apply (hangs_node Z_star h55 1 0 (0, 0) [] []); [reflexivity|reflexivity|repeat constructor; cbn; intuition discriminate|constructor].
  - intros [|[|n]] i; cbn; intuition (try congruence). destruct n; cbn in *; contradiction.
  - split; [left; reflexivity|]. split; [reflexivity|]. intros s [<-|[<-|[]]] E; [reflexivity|discriminate E].
Qed.
Definition h55l : heap Z_star :=
  [@mkObj Z_star None false None None None false [(0, (1, 0))] []; @mkObj Z_star None true None None None false [(0, (0, 0))] []].
Example C55_constructor_ex : network Z_star 2 h55 1 [] = Ok (mkNet 0 []) /\ In 1 (nids t55) /\ length (ids t55) = 2 /\ only_root h55 t55 0.
Proof. split; [reflexivity|]. split; [right; left; reflexivity|]. split; [reflexivity|apply h55_ok]. Qed.
Example C55_leaves_refuted_ex : hangs h55l None (Nd 0 [(0, Lf 1, 0)]) /\ network Z_star 2 h55l 0 [] = Raise NotImplementedError.
Proof. split; [|reflexivity]. apply hangs_root; [reflexivity|reflexivity|repeat constructor; cbn; intuition discriminate|]. repeat constructor. Qed.
Example C55_leaf_template_ex : network Z_star 1 h55l 1 [] = Ok (mkNet 1 []) /\ vertices Z_star 1 h55l (mkNet 1 []) = Ok [1].
Proof. apply C55_leaf_template; [reflexivity|reflexivity|lia]. Qed.
Example C55_items_ex : exists N, setitem Z_star 2 h55 (mkNet 0 []) 1 (VArr (a55 0)) = Ok N /\ getitem Z_star 2 h55 N 1 = Ok (VArr (a55 0)) /\
  getitem Z_star 2 h55 N 0 = Raise KeyError /\ setitem Z_star 2 h55 N 1 (VArr (a55 1)) = Raise RuntimeError /\ setitem Z_star 2 h55 N 2 (VArr (a55 1)) = Raise KeyError.
Proof. eexists. repeat split. Qed.
Example C65_vectorize_tensorize_ex : total (asize a55) (ids t55) = 4 /\ (forall n, In n (ids t55) -> oarr (hget h55 n) = Some (a55 n) /\ shape (a55 n) <> []) /\
  exists M, tensorize_net Z_star 2 h55 (mkNet 0 []) [5; 6; 7; 8]%Z = Ok M /\ n_wfn M = [(0, VArr (@mkArr Z_star [2] [5; 6]%Z)); (1, VArr (@mkArr Z_star [2; 1] [7; 8]%Z))] /\
    vectorize_net Z_star 2 h55 M = Ok [5; 6; 7; 8]%Z /\ tensorize_net Z_star 2 h55 M [5; 6; 7]%Z = Raise ValueError.
Proof. split; [reflexivity|]. split; [intros n [<-|[<-|[]]]; split; [reflexivity|discriminate|reflexivity|discriminate]|]. eexists. repeat split. Qed.
Example C65_tensorize_vectorize_ex : let N := mkNet 0 [(0, VArr (@mkArr Z_star [2] [5; 6]%Z)); (1, VArr (@mkArr Z_star [2; 1] [7; 8]%Z))] in
  vectorize_net Z_star 2 h55 N = Ok [5; 6; 7; 8]%Z /\ tensorize_net Z_star 2 h55 N [5; 6; 7; 8]%Z = Ok N.
Proof. split; reflexivity. Qed.
Example C65_copy_ex : as_template Z_star 2 h55 (mkNet 0 []) = Ok (mkNet 0 [(0, VNone); (1, VNone)]) /\ copy Z_star 2 h55 (mkNet 0 [(0, VNone); (1, VNone)]) = Ok (mkNet 0 [(0, VObj); (1, VObj)]) /\
  setitem Z_star 2 h55 (mkNet 0 [(0, VObj); (1, VObj)]) 1 (VArr (a55 1)) = Raise RuntimeError.
Proof. repeat split. Qed.
Example C65_partial_env_refuted_ex : tree_partial_env Z_star 2 h55 nat 1 (fun n => Ok n) (fun a _ _ => Ok a) (fun a _ _ => Ok a) None None (mkNet 0 []) = Raise KeyError /\ lids t55 = []
  /\ tree_partial_env Z_star 2 h55l nat 1 (fun n => Ok n) (fun a _ _ => Ok a) (fun a _ _ => Ok a) None None (mkNet 1 []) = Raise KeyError.
Proof. repeat split. Qed.
