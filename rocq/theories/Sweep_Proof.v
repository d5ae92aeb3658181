(** Proofs about the sweeps. *)
From Coq Require Import List Arith Bool ZArith Lia Permutation.
From Verif Require Import Py Alg ListX NdArray_Model Contract_Model Net_Model Net_Spec Trav_Proof Acyc_Proof
  Link_Spec Link_Proof TEnv_Proof EnvThm_Proof Gen_Proof Vec_Proof Sweep_Model Sweep_Spec.
Import ListNotations.
Local Open Scope nat_scope.
Local Open Scope list_scope.

Section Proof.
Variable K : StarRing.
Variable T : Type.
Variable opp half_of : T -> T.
Implicit Types h : heap K.

Lemma put_axis_acc h n x m : oacc (hget (modify h n (put_axis x)) m) = oacc (hget h m).
Proof.
  destruct (Nat.lt_ge_cases n (length h)) as [L|L]; [|now rewrite modify_out].
  destruct (Nat.eq_dec n m) as [->|N]; [rewrite hget_modify_eq by auto|rewrite hget_modify_neq by auto]; reflexivity.
Qed.
Lemma put_axis_leaf h n x m : oleaf (hget (modify h n (put_axis x)) m) = oleaf (hget h m).
Proof.
  destruct (Nat.lt_ge_cases n (length h)) as [L|L]; [|now rewrite modify_out].
  destruct (Nat.eq_dec n m) as [->|N]; [rewrite hget_modify_eq by auto|rewrite hget_modify_neq by auto]; reflexivity.
Qed.
Lemma hangs_axis h n x t up : hangs h up t -> hangs (modify h n (put_axis x)) up t.
Proof. apply hangs_same. intros m. now rewrite put_axis_acc, put_axis_leaf. Qed.

Lemma oriented_same h h' : forall t ax, (forall x, In x (nids t) -> oaxis (hget h' x) = oaxis (hget h x)) ->
  oriented h ax t -> oriented h' ax t.
Proof.
  induction t as [n|n ks IH] using tree_ind'; intros ax E H; [constructor|].
  inversion H as [|? ? ? A F]; subst. constructor.
  - apply E. left; auto.
  - rewrite Forall_forall in *. intros k Hk. apply (IH k Hk); auto.
    intros x Hx. apply E. right. apply in_flat_map. eauto.
Qed.

Definition moved h (n : id) (i : nat) (c : id) : heap K :=
  modify (modify h n (put_axis (Some i))) c (put_axis None).

Lemma moved_axis h n i c x : n < length h -> c < length h ->
  hget (moved h n i c) x = if x =? c then put_axis None (hget (modify h n (put_axis (Some i))) c)
                           else if x =? n then put_axis (Some i) (hget h n) else hget h x.
Proof.
  intros Hn Hc. unfold moved.
  destruct (Nat.eqb_spec x c) as [->|N]; [now rewrite hget_modify_eq by (rewrite length_modify; auto)|].
  rewrite hget_modify_neq by auto. destruct (Nat.eqb_spec x n) as [->|N']; [now rewrite hget_modify_eq|].
  now rewrite hget_modify_neq by auto.
Qed.

Lemma trip h up n ks k :
  hangs h up (Nd n ks) -> oriented h None (Nd n ks) -> NoDup (ids (Nd n ks)) -> In k ks -> inner (k_t k) = true ->
  let c := top (k_t k) in let h1 := moved h n (k_i k) c in
  hangs h1 (Some (k_j k, (n, k_i k))) (k_t k) /\ oriented h1 None (k_t k) /\
  oaxis (hget h n) = None /\ oaxis (hget h c) = Some (k_j k) /\
  oaxis (hget h1 c) = None /\
  dindex (oacc (hget h n)) (k_i k) = Ok (c, k_j k) /\
  dindex (oacc (hget h c)) (k_j k) = Ok (n, k_i k) /\
  dindex (oacc (hget h1 c)) (k_j k) = Ok (n, k_i k) /\
  moved h1 c (k_j k) n = h /\ moved h c (k_j k) n = h /\ n <> c.
Proof.
  intros H O ND Hk Hi c h1.
  assert (Hn : n < length h) by (eapply hangs_lt; eauto; left; auto).
  assert (Hc : c < length h) by (eapply hangs_lt; eauto; eapply ids_kid; eauto; apply top_in).
  destruct (NoDup_kid _ _ _ ND Hk) as (NDk & Nn).
  assert (Nc : n <> c) by (intros ->; apply Nn, top_in).
  destruct (hangs_kids _ _ _ _ _ H) as (_ & F & _). rewrite Forall_forall in F. specialize (F k Hk).
  inversion O as [|? ? ? Oa Of]; subst. rewrite Forall_forall in Of. specialize (Of k Hk).
  destruct (hangs_acc _ _ _ _ _ H) as (Dn & Ds & _). destruct (Ds k Hk) as (Din & _).
  destruct (k_t k) as [m|m cks] eqn:Ek; [discriminate|]. cbn [top] in c. subst c.
  inversion Of as [|? ? ? Ca Cf]; subst.
  destruct (hangs_acc _ _ _ _ _ F) as (Dc & _ & _ & _ & Dp). specialize (Dp _ eq_refl).
  assert (D1 : dindex (oacc (hget h n)) (k_i k) = Ok (m, k_j k)).
  { unfold dindex. rewrite (dget_nodup _ _ (m, k_j k)); auto.
    unfold kid_half in Din. rewrite Ek in Din. exact Din. }
  assert (D2 : dindex (oacc (hget h m)) (k_j k) = Ok (n, k_i k)).
  { unfold dindex. now rewrite (dget_nodup _ _ (n, k_i k)). }
  assert (E1 : forall x, hget h1 x = if x =? m then put_axis None (hget h m)
                           else if x =? n then put_axis (Some (k_i k)) (hget h n) else hget h x).
  { intros x. unfold h1. rewrite moved_axis by auto. now rewrite (hget_modify_neq _ _ _ m) by auto. }
  assert (L1 : length h1 = length h) by (unfold h1, moved; now rewrite !length_modify).
  split; [now apply hangs_axis, hangs_axis|].
  split. { constructor.
    - rewrite E1, Nat.eqb_refl. reflexivity.
    - rewrite Forall_forall in Cf |- *. intros k' Hk'. eapply oriented_same; [|apply Cf, Hk'].
      intros x Hx. rewrite E1. destruct (NoDup_kid _ _ _ NDk Hk') as (_ & Nm).
      apply nids_ids in Hx. destruct (Nat.eqb_spec x m) as [->|_]; [tauto|].
      destruct (Nat.eqb_spec x n) as [->|_]; [|auto]. exfalso. apply Nn. eapply ids_kid; eauto. }
  split; auto. split; auto. split; [rewrite E1, Nat.eqb_refl; reflexivity|].
  split; auto. split; auto.
  split. { rewrite E1, Nat.eqb_refl. exact D2. }
  assert (Pn : put_axis None (hget h n) = hget h n) by (destruct (hget h n); cbn in *; now subst).
  assert (Pc : put_axis (Some (k_j k)) (hget h m) = hget h m) by (destruct (hget h m); cbn in *; now subst).
  split; [|split; auto].
  - apply heap_ext; [unfold moved; now rewrite !length_modify|].
    intros x. rewrite moved_axis by lia. rewrite (hget_modify_neq _ _ _ n) by auto. rewrite !E1, ?Nat.eqb_refl.
    destruct (Nat.eqb_spec x n) as [->|Nx].
    + destruct (Nat.eqb_spec n m); [congruence|]. rewrite <- Pn at 2. reflexivity.
    + destruct (Nat.eqb_spec x m) as [->|Nx']; [|reflexivity]. rewrite <- Pc at 2. reflexivity.
  - apply heap_ext; [unfold moved; now rewrite !length_modify|].
    intros x. rewrite moved_axis by lia. rewrite (hget_modify_neq _ _ _ n) by auto.
    destruct (Nat.eqb_spec x n) as [->|Nx]; [auto|].
    destruct (Nat.eqb_spec x m) as [->|Nx']; [auto|reflexivity].
Qed.

(** * Runs *)
Lemma foreach_app {A} (f : A -> state K -> run K T) l1 l2 : forall s,
  foreach f (l1 ++ l2) s = andthen (foreach f l1 s) (foreach f l2).
Proof.
  induction l1 as [|x l1 IH]; intros s; cbn [foreach app].
  - unfold ret, andthen. now destruct (foreach f l2 s).
  - destruct (f x s) as [l [s'|e]]; cbn [andthen]; [|reflexivity]. rewrite IH.
    destruct (foreach f l1 s') as [l' [s''|e]]; cbn [andthen]; [|reflexivity].
    destruct (foreach f l2 s''). now rewrite app_assoc.
Qed.

Lemma foreach_ok {A B} (f : A -> state K -> run K T) (g : B -> list A) (tr : B -> list (event T)) ks s :
  (forall k, In k ks -> foreach f (g k) s = (tr k, Ok s)) ->
  foreach f (flat_map g ks) s = (flat_map tr ks, Ok s).
Proof.
  induction ks as [|k ks IH]; intros E; [reflexivity|]. cbn [flat_map].
  rewrite foreach_app, E by (left; auto). cbn [andthen]. rewrite IH by (intros; apply E; right; auto). reflexivity.
Qed.

Lemma foreach_map {A B} (f : A -> state K -> run K T) (g : B -> A) ks : forall s,
  foreach f (map g ks) s = foreach (fun b => f (g b)) ks s.
Proof.
  induction ks as [|k ks IH]; intros s; [reflexivity|]. cbn [map foreach].
  destruct (f (g k) s) as [l [s'|e]]; cbn [andthen]; [now rewrite IH|reflexivity].
Qed.

Lemma foreach_all {B} (f : B -> state K -> run K T) (tr : B -> list (event T)) ks s :
  (forall k, In k ks -> f k s = (tr k, Ok s)) ->
  foreach f ks s = (flat_map tr ks, Ok s).
Proof.
  induction ks as [|k ks IH]; intros E; [reflexivity|]. cbn [flat_map foreach].
  rewrite E by (left; auto). cbn [andthen]. rewrite IH by (intros; apply E; right; auto). reflexivity.
Qed.

(** * One-site sweep *)
Variable tau : T.

Definition fwd_body : bool * edge -> state K -> run K T := fun x s =>
  let '(rev, (t1, i, _, _)) := x in
  if rev : bool then andthen (split_prop t1 tau s) (move t1 i (Some (opp tau)) false)
  else move t1 i None false s.
Definition bwd_body : bool * edge -> state K -> run K T := fun x s =>
  let '(rev, (t1, _, t2, j)) := x in
  if rev : bool then andthen (move t2 j (Some (opp tau)) false s) (split_prop t1 tau)
  else move t2 j None false s.

Fixpoint fwd (t : tree) : list (event T) :=
  match t with
  | Lf _ => []
  | Nd n ks => flat_map (fun k => if inner (k_t k) then
      Shift (n, k_i k, top (k_t k), k_j k) :: fwd (k_t k) ++
        [Node (top (k_t k)) tau; Bond (top (k_t k), k_j k, n, k_i k) (opp tau)] else []) ks
  end.
Fixpoint bwd (t : tree) : list (event T) :=
  match t with
  | Lf _ => []
  | Nd n ks => flat_map (fun l => l) (rev (map (fun k => if inner (k_t k) then
      Bond (n, k_i k, top (k_t k), k_j k) (opp tau) :: Node (top (k_t k)) tau :: bwd (k_t k) ++
        [Shift (top (k_t k), k_j k, n, k_i k)] else []) ks))
  end.

Lemma fwd_run : forall t up h, hangs h up t -> oriented h None t -> NoDup (ids t) ->
  foreach fwd_body (tour false t) (h, top t) = (fwd t, Ok (h, top t)).
Proof.
  induction t as [n|n ks IH] using tree_ind'; intros up h H O ND; [reflexivity|].
  rewrite Forall_forall in IH. cbn [tour fwd top]. cbn [orb].
  apply foreach_ok. intros k Hk. destruct (inner (k_t k)) eqn:Ei; [|reflexivity].
  destruct (trip _ _ _ _ _ H O ND Hk Ei) as (H1 & O1 & An & Ac & A1 & D1 & D2 & D3 & B1 & B2 & N).
  cbn [foreach fwd_body]. unfold move at 1. rewrite D1, An. cbn [is_none negb]. cbn [andthen app].
  rewrite foreach_app.
  fold (moved h n (k_i k) (top (k_t k))).
  rewrite (IH k Hk _ _ H1 O1) by (eapply NoDup_kid; eauto).
  cbn [andthen foreach fwd_body]. unfold split_prop, move. cbn [fst]. rewrite A1. cbn [is_none andthen].
  rewrite D3, A1. cbn [is_none negb app andthen ret].
  fold (moved (moved h n (k_i k) (top (k_t k))) (top (k_t k)) (k_j k) n). rewrite B1. reflexivity.
Qed.

Lemma rev_flat_map {A B} (g : A -> list B) l : rev (flat_map g l) = flat_map (fun l => l) (rev (map (fun x => rev (g x)) l)).
Proof.
  induction l as [|x l IH]; [reflexivity|]. cbn [flat_map map rev]. rewrite rev_app_distr, flat_map_app, IH.
  cbn [flat_map]. now rewrite app_nil_r.
Qed.

Lemma bwd_run : forall t up h, hangs h up t -> oriented h None t -> NoDup (ids t) ->
  foreach bwd_body (rev (tour false t)) (h, top t) = (bwd t, Ok (h, top t)).
Proof.
  induction t as [n|n ks IH] using tree_ind'; intros up h H O ND; [reflexivity|].
  rewrite Forall_forall in IH. cbn [tour bwd top]. cbn [orb].
  rewrite rev_flat_map, <- !map_rev, !flat_map_concat_map, !map_map, <- !flat_map_concat_map.
  apply foreach_ok. intros k Hk. apply in_rev in Hk. destruct (inner (k_t k)) eqn:Ei; [|reflexivity].
  destruct (trip _ _ _ _ _ H O ND Hk Ei) as (H1 & O1 & An & Ac & A1 & D1 & D2 & D3 & B1 & B2 & N).
  cbn [rev]. rewrite rev_app_distr. cbn [rev app].
  cbn [foreach bwd_body]. unfold move at 1. rewrite D1, An. cbn [is_none negb].
  fold (moved h n (k_i k) (top (k_t k))). unfold split_prop. cbn [andthen app fst]. rewrite A1. cbn [is_none andthen app].
  rewrite foreach_app.
  rewrite (IH k Hk _ _ H1 O1) by (eapply NoDup_kid; eauto).
  cbn [andthen foreach bwd_body]. unfold move.
  rewrite D3, A1. cbn [is_none negb app andthen ret].
  fold (moved (moved h n (k_i k) (top (k_t k))) (top (k_t k)) (k_j k) n). rewrite B1. reflexivity.
Qed.

Lemma split_step_run h t fuel backward : hangs h None t -> oriented h None t -> NoDup (ids t) -> height t <= fuel ->
  inner t = true ->
  split_step opp fuel tau backward (h, top t)
  = (if backward then Node (top t) tau :: bwd t else fwd t ++ [Node (top t) tau], Ok (h, top t)).
Proof.
  intros H O ND Hf Hi. unfold split_step.
  assert (A : oaxis (hget h (top t)) = None) by (inversion O; subst; auto; discriminate).
  rewrite A. rewrite (decorated_hangs _ _ _ None) by auto. destruct backward.
  - unfold split_prop at 1. cbn [fst]. rewrite A. cbn [is_none andthen].
    fold bwd_body. rewrite (bwd_run _ _ _ H O ND). reflexivity.
  - fold fwd_body. rewrite (fwd_run _ _ _ H O ND). cbn [andthen]. unfold split_prop. cbn [fst snd].
    rewrite A. reflexivity.
Qed.

(** What the event lists contain. *)
Lemma node_props_app (l l' : list (event T)) : node_props (l ++ l') = node_props l ++ node_props l'.
Proof. apply flat_map_app. Qed.
Lemma bond_props_app (l l' : list (event T)) : bond_props (l ++ l') = bond_props l ++ bond_props l'.
Proof. apply flat_map_app. Qed.
Lemma pair_props_app (l l' : list (event T)) : pair_props (l ++ l') = pair_props l ++ pair_props l'.
Proof. apply flat_map_app. Qed.
Lemma follows_app r (l : list (event T)) r' l' r'' : follows r l r' -> follows r' l' r'' -> follows r (l ++ l') r''.
Proof. induction 1; intros; cbn; auto; constructor; auto. Qed.

Definition tl_nodes (t : tree) : list id := tl (nids t).
Lemma nids_top t : inner t = true -> nids t = top t :: tl (nids t).
Proof. destruct t; [discriminate|reflexivity]. Qed.

Lemma fwd_nodes t : Permutation (node_props (fwd t)) (map (fun n => (n, tau)) (tl (nids t))).
Proof.
  induction t as [n|n ks IH] using tree_ind'; [constructor|]. cbn [fwd nids tl].
  induction IH as [|k ks Hk _ IHk]; [constructor|]. cbn [flat_map]. rewrite node_props_app, map_app.
  apply Permutation_app; auto. destruct (inner (k_t k)) eqn:Ei.
  - rewrite (nids_top _ Ei). cbn [node_props flat_map app map]. fold (node_props (fwd (k_t k) ++
      [Node (top (k_t k)) tau; Bond (top (k_t k), k_j k, n, k_i k) (opp tau)])).
    rewrite node_props_app. cbn [node_props flat_map app]. rewrite Permutation_app_comm. cbn [app]. constructor. auto.
  - destruct (k_t k); [constructor|discriminate].
Qed.

Lemma fwd_bonds t : Permutation (bond_props (fwd t)) (map (fun e => (rev_edge e, opp tau)) (inner_edges t)).
Proof.
  induction t as [n|n ks IH] using tree_ind'; [constructor|]. cbn [fwd inner_edges].
  induction IH as [|k ks Hk _ IHk]; [constructor|]. cbn [flat_map]. rewrite bond_props_app, map_app.
  apply Permutation_app; auto. destruct (inner (k_t k)) eqn:Ei; [|constructor].
  cbn [bond_props flat_map app map]. fold (bond_props (fwd (k_t k) ++
      [Node (top (k_t k)) tau; Bond (top (k_t k), k_j k, n, k_i k) (opp tau)])).
  rewrite bond_props_app. cbn [bond_props flat_map app]. rewrite Permutation_app_comm. cbn [app rev_edge]. constructor. auto.
Qed.

Lemma fwd_pairs t : pair_props (fwd t) = [].
Proof.
  induction t as [n|n ks IH] using tree_ind'; [reflexivity|]. cbn [fwd].
  induction IH as [|k ks Hk _ IHk]; [reflexivity|]. cbn [flat_map]. rewrite pair_props_app, IHk, app_nil_r.
  destruct (inner (k_t k)); [|reflexivity]. cbn [pair_props flat_map app].
  fold (pair_props (fwd (k_t k) ++ [Node (top (k_t k)) tau; Bond (top (k_t k), k_j k, n, k_i k) (opp tau)])).
  rewrite pair_props_app, Hk. reflexivity.
Qed.

Lemma fwd_follows t : follows (top t) (fwd t) (top t).
Proof.
  induction t as [n|n ks IH] using tree_ind'; [constructor|]. cbn [fwd top].
  induction IH as [|k ks Hk _ IHk]; [constructor|]. cbn [flat_map]. apply follows_app with n; auto.
  destruct (inner (k_t k)); [|constructor]. constructor. apply follows_app with (top (k_t k)); auto.
  repeat constructor.
Qed.

(** The backward list is the forward list reversed and flipped. *)
Lemma bwd_rev t : Node (top t) tau :: bwd t = map flip (rev (fwd t ++ [Node (top t) tau])).
Proof.
  rewrite rev_app_distr. cbn [rev app map flip]. f_equal.
  induction t as [n|n ks IH] using tree_ind'; [reflexivity|]. cbn [bwd fwd top].
  induction IH as [|k ks Hk _ IHk]; [reflexivity|]. cbn [map rev flat_map].
  rewrite flat_map_app, rev_app_distr, map_app, IHk. f_equal. cbn [flat_map]. rewrite app_nil_r.
  destruct (inner (k_t k)); [|reflexivity]. cbn [rev]. rewrite rev_app_distr. cbn [rev app map flip rev_edge].
  f_equal. f_equal. rewrite map_app. cbn [map flip rev_edge]. f_equal. auto.
Qed.

Lemma flip_flip (e : event T) : flip (flip e) = e.
Proof. destruct e as [n x|e x|e x|e]; cbn; auto; destruct e as (((a & i) & b) & j); reflexivity. Qed.
Lemma is_prop_flip (e : event T) : is_prop (flip e) = is_prop e.
Proof. now destruct e. Qed.
Lemma props_app (l l' : list (event T)) : props (l ++ l') = props l ++ props l'.
Proof. apply filter_app. Qed.
Lemma props_flip (l : list (event T)) : props (map flip l) = map flip (props l).
Proof.
  induction l as [|e l IH]; [reflexivity|]. cbn [map]. unfold props in *. cbn [filter]. rewrite is_prop_flip, IH.
  now destruct (is_prop e).
Qed.
Lemma props_rev (l : list (event T)) : props (rev l) = rev (props l).
Proof.
  induction l as [|e l IH]; [reflexivity|]. cbn [rev]. rewrite props_app, IH. unfold props. cbn [filter].
  destruct (is_prop e); cbn [rev]; [reflexivity|apply app_nil_r].
Qed.

Lemma symmetric_double (l : list (event T)) : symmetric (l ++ map flip (rev l)).
Proof.
  unfold symmetric. rewrite props_app, rev_app_distr, map_app. f_equal.
  - rewrite props_flip, props_rev, <- map_rev, rev_involutive. reflexivity.
  - rewrite props_flip, props_rev, map_map. symmetry. rewrite <- (map_id (rev (props l))) at 2.
    apply map_ext. apply flip_flip.
Qed.

Lemma node_props_rev (l : list (event T)) : node_props (map flip (rev l)) = rev (node_props l).
Proof.
  induction l as [|e l IH]; [reflexivity|]. cbn [rev]. rewrite map_app, node_props_app, IH.
  destruct e; cbn; rewrite ?app_nil_r; reflexivity.
Qed.
Lemma bond_props_rev (l : list (event T)) :
  bond_props (map flip (rev l)) = rev (map (fun x => (rev_edge (fst x), snd x)) (bond_props l)).
Proof.
  induction l as [|e l IH]; [reflexivity|]. cbn [rev]. rewrite map_app, bond_props_app, IH.
  destruct e; cbn; rewrite ?app_nil_r; reflexivity.
Qed.
Lemma pair_props_rev (l : list (event T)) :
  pair_props (map flip (rev l)) = rev (map (fun x => (rev_edge (fst x), snd x)) (pair_props l)).
Proof.
  induction l as [|e l IH]; [reflexivity|]. cbn [rev]. rewrite map_app, pair_props_app, IH.
  destruct e; cbn; rewrite ?app_nil_r; reflexivity.
Qed.
Lemma bwd_follows t : follows (top t) (bwd t) (top t).
Proof.
  induction t as [n|n ks IH] using tree_ind'; [constructor|]. cbn [bwd top].
  induction IH as [|k ks Hk _ IHk]; [constructor|]. cbn [map rev]. rewrite flat_map_app.
  apply follows_app with n; auto. cbn [flat_map]. rewrite app_nil_r.
  destruct (inner (k_t k)); [|constructor]. constructor. constructor.
  apply follows_app with (top (k_t k)); auto.
  repeat constructor.
Qed.

Lemma rev_rev_edge e : rev_edge (rev_edge e) = e.
Proof. destruct e as (((a & i) & b) & j). reflexivity. Qed.

Theorem split_step_ok h t fuel : hangs h None t -> oriented h None t -> NoDup (ids t) -> height t <= fuel ->
  inner t = true ->
  (exists l, split_step opp fuel tau false (h, top t) = (l, Ok (h, top t)) /\
    follows (top t) l (top t) /\
    Permutation (node_props l) (map (fun n => (n, tau)) (nids t)) /\
    Permutation (bond_props l) (map (fun e => (rev_edge e, opp tau)) (inner_edges t)) /\
    pair_props l = []) /\
  (exists l, split_step opp fuel tau true (h, top t) = (l, Ok (h, top t)) /\
    follows (top t) l (top t) /\
    Permutation (node_props l) (map (fun n => (n, tau)) (nids t)) /\
    Permutation (bond_props l) (map (fun e => (e, opp tau)) (inner_edges t)) /\
    pair_props l = []).
Proof.
  intros H O ND Hf Hi. split; eexists; (split; [apply split_step_run; auto|]); cbn iota.
  - split; [|split; [|split]].
    + eapply follows_app; [apply fwd_follows|]. repeat constructor.
    + rewrite node_props_app, Permutation_app_comm. cbn [node_props flat_map app]. rewrite (nids_top _ Hi).
      cbn [map]. constructor. apply fwd_nodes.
    + rewrite bond_props_app. cbn [bond_props flat_map app]. rewrite app_nil_r. apply fwd_bonds.
    + rewrite pair_props_app, fwd_pairs. reflexivity.
  - split; [constructor; apply bwd_follows|]. rewrite bwd_rev. split; [|split].
    + rewrite node_props_rev, <- Permutation_rev, node_props_app, Permutation_app_comm.
      cbn [node_props flat_map app]. rewrite (nids_top _ Hi). cbn [map]. constructor. apply fwd_nodes.
    + rewrite bond_props_rev, <- Permutation_rev, bond_props_app. cbn [bond_props flat_map app].
      rewrite app_nil_r. rewrite fwd_bonds, map_map. cbn [fst snd].
      erewrite map_ext; [reflexivity|]. intros e. cbn. now rewrite rev_rev_edge.
    + rewrite pair_props_rev, pair_props_app, fwd_pairs. reflexivity.
Qed.

End Proof.
