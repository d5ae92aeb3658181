(** The trees of the spin-boson model with single-particle functions or auxiliary leaves: proofs. *)
From Coq Require Import String Ascii List Arith Bool Lia Permutation Reals.
From Verif Require Import Py Alg Cplx ListX NdArray_Model Tools_Model Tools_Proof Template_Model Template_Proof Phonon_Model Phonon_Spec Phonon_Proof Spin_Model Spin_Spec Spin_Proof Gen_Spec HuffName_Proof TplTree_Proof SpinGraph_Model SpinGraph_Spec SpinGraph_Proof.
Import ListNotations.
Notation length := Datatypes.length.
Local Open Scope nat_scope.
Local Open Scope list_scope.

Notation sfx x c := (x ++ String c EmptyString)%string.
Lemma but_last_app x c : but_last (sfx x c) = x.
Proof.
  induction x as [|a x IH]; auto. cbn [String.append but_last]. destruct (sfx x c) eqn:E; [destruct x; discriminate E|]. now rewrite IH.
Qed.
Lemma sfx_inj c x y : sfx x c = sfx y c -> x = y.
Proof. intros E. rewrite <- (but_last_app x c), <- (but_last_app y c). now rewrite E. Qed.
Lemma has_sfx c x : hasb c (sfx x c) = true.
Proof. rewrite hasb_app. unfold hasb at 2. cbn [list_ascii_of_string existsb]. rewrite Ascii.eqb_refl. apply orb_true_r. Qed.

Lemma look_in (g : graph) k v : look g k = Some v -> In k (map fst g).
Proof. induction g as [|[k' v'] g IH]; cbn [dlookup map fst]; [discriminate|]. destruct (String.eqb_spec k k') as [->|N]; [now left|right; auto]. Qed.
Lemma look_update : forall (h g : graph), NoDup (map fst h) -> forall k, look (update g h) k = match look h k with Some v => Some v | None => look g k end.
Proof.
  induction h as [|[k0 v0] h IH]; intros g D k; [reflexivity|]. cbn [map fst] in D. inversion D as [|? ? N0 D']; subst. cbn [dupdate dlookup]. rewrite IH, look_set by auto.
  destruct (String.eqb_spec k k0) as [->|N]; [|reflexivity]. destruct (look h k0) eqn:E; [|reflexivity]. exfalso. apply N0. eapply look_in; eauto.
Qed.
Lemma update_keys : forall (h g : graph), NoDup (map fst (g ++ h)) -> update g h = g ++ h.
Proof.
  induction h as [|[k0 v0] h IH]; intros g D; [now rewrite app_nil_r|]. cbn [dupdate].
  assert (E : set_key g k0 v0 = g ++ [(k0, v0)]).
  { rewrite map_app in D. cbn [map fst] in D. apply NoDup_remove_2 in D. rewrite in_app_iff in D. assert (N : ~ In k0 (map fst g)) by tauto. clear -N. induction g as [|[k v] g IH]; auto. cbn [dset map fst In app] in *. destruct (String.eqb_spec k0 k) as [->|E]; [tauto|]. f_equal. apply IH. tauto. }
  rewrite E. rewrite IH by (rewrite <- app_assoc; exact D). now rewrite <- app_assoc.
Qed.
Section Keys.
Variables (c : ascii) (F : string -> list string).
Lemma look_keys l x : In x l -> look (map (fun x => (sfx x c, F x)) l) (sfx x c) = Some (F x).
Proof.
  induction l as [|y l IH]; intros []; cbn [map dlookup].
  - subst y. now rewrite String.eqb_refl.
  - destruct (String.eqb_spec (sfx x c) (sfx y c)) as [E|E]; [apply sfx_inj in E; now subst y|auto].
Qed.
Lemma look_other l k : (forall x, In x l -> k <> sfx x c) -> look (map (fun x => (sfx x c, F x)) l) k = None.
Proof.
  induction l as [|y l IH]; intros H; [reflexivity|]. cbn [map dlookup]. destruct (String.eqb_spec k (sfx y c)) as [E|E]; [exfalso; apply (H y (or_introl eq_refl) E)|]. apply IH. intros x Hx. apply H. now right.
Qed.
Lemma keys_NoDup l : NoDup l -> NoDup (map fst (map (fun x => (sfx x c, F x)) l)).
Proof. intros D. rewrite map_map. cbn [fst]. apply FinFun.Injective_map_NoDup; auto. intros x y. apply sfx_inj. Qed.
End Keys.
Lemma combine_maps {A B C} (f : A -> B) (h : A -> C) l : combine (map f l) (map h l) = map (fun x => (f x, h x)) l.
Proof. induction l as [|x l IH]; auto. cbn [map combine]. now rewrite IH. Qed.
Lemma combine_self {A B} (f : A -> B) l : combine l (map f l) = map (fun x => (x, f x)) l.
Proof. induction l as [|x l IH]; auto. cbn [map combine]. now rewrite IH. Qed.

(** ** [autograph_full] and [autograph_mctdh] *)
Lemma no_s x y : leaf_name x -> x <> sfx y "s".
Proof. intros L E. pose proof (leaf_has "s"%char x L eq_refl eq_refl) as H. rewrite E, has_sfx in H. discriminate H. Qed.
Lemma full_ok p : sp_outer p = None -> good p -> exists g, graph_full p = Ok (g, "ROOT"%string) /\ unfolds (look g) (SNd "ROOT" (map SLf (model_leaves (n_inner p) 0))).
Proof.
  intros O G. unfold graph_full. rewrite (leaves_ok p G). unfold n_outer, has_bath. rewrite O. cbn [bind]. unfold autograph_full. rewrite inner_names. eexists. split; [reflexivity|].
  constructor.
  - rewrite map_map. cbn [sname]. rewrite map_id. cbn [dlookup String.eqb Ascii.eqb Bool.eqb]. unfold model_leaves, mode_names. cbn [seq map]. now rewrite app_nil_r.
  - apply Forall_forall. intros T I. apply in_map_iff in I. destruct I as (x & <- & I). constructor. apply model_named, plain_leaf in I. destruct I as (A & _). cbn [dlookup]. unfold root_key. apply String.eqb_neq in A. now rewrite A.
Qed.
Definition spf_tree (x : string) : stree := SNd (sfx x "s") (map SLf (chars x)).
Lemma char_short x c m : In x (mode_names "I" m) -> String c EmptyString <> sfx x "s".
Proof.
  intros I E. apply in_map_iff in I. destruct I as (n & <- & _). cbn [String.append] in E. injection E as _ E. destruct (str n); discriminate E.
Qed.
Lemma mctdh_ok p : sp_outer p = None -> good p -> exists g, graph_mctdh p = Ok (g, "ROOT"%string) /\ unfolds (look g) (SNd "ROOT" (SLf elec_leaf :: map spf_tree (mode_names "I" (n_inner p)))).
Proof.
  intros O G. unfold graph_mctdh. rewrite (leaves_ok p G). unfold n_outer, has_bath. rewrite O. cbn [bind]. unfold autograph_mctdh. rewrite inner_names. set (l := mode_names "I" (n_inner p)).
  rewrite combine_maps. pose proof (keys_NoDup "s"%char chars l (names_NoDup "I" (n_inner p))) as D. rewrite (update_keys _ []) by exact D. cbn [app].
  eexists. split; [reflexivity|].
  assert (K : forall k, (forall x, In x l -> k <> sfx x "s") -> k <> "ROOT"%string -> look (update [(root_key, elec_leaf :: map (fun s => sfx s "s") l)] (map (fun x => (sfx x "s", chars x)) l)) k = None).
  { intros k H N. rewrite look_update by exact D. rewrite look_other by exact H. cbn [dlookup]. unfold root_key. apply String.eqb_neq in N. now rewrite N. }
  constructor.
  - rewrite look_update by exact D. rewrite look_other.
    + cbn [dlookup map sname]. rewrite map_map. reflexivity.
    + intros x I E. pose proof (has_sfx "s"%char x) as H. rewrite <- E in H. discriminate H.
  - constructor.
    + constructor. apply K; [|discriminate]. intros x I. apply no_s. now left.
    + apply Forall_forall. intros T I. apply in_map_iff in I. destruct I as (x & <- & I). unfold spf_tree. constructor.
      * rewrite look_update by exact D. rewrite look_keys by exact I. rewrite map_map. cbn [sname]. now rewrite map_id.
      * apply Forall_forall. intros T J. apply in_map_iff in J. destruct J as (y & <- & J). constructor. unfold chars in J. apply in_map_iff in J. destruct J as (c & <- & _).
        apply K; [|discriminate]. intros z Iz. apply (char_short z c (n_inner p) Iz).
Qed.
Lemma mctdh_tips l : stips (SNd "ROOT" (SLf elec_leaf :: map spf_tree l)) = elec_leaf :: flat_map chars l.
Proof. cbn [stips flat_map app]. f_equal. rewrite flat_map_map. apply flat_map_ext. intros x. unfold spf_tree. cbn [stips]. rewrite flat_map_map. apply flat_leaves. Qed.
Lemma mctdh_lost m n : ~ In ("I" ++ str n)%string (elec_leaf :: flat_map chars (mode_names "I" m)).
Proof.
  intros [E|H]; [discriminate E|]. apply in_flat_map in H. destruct H as (x & _ & H). apply in_map_iff in H. destruct H as (c & E & _). cbn [String.append] in E. injection E as _ E.
  pose proof (int_of_str n) as I. rewrite <- E in I. discriminate I || (injection I as I; subst n; discriminate E).
Qed.

(** ** [autograph_with_aux] *)
Lemma dim_get_in : forall d k v, NoDup (map fst d) -> In (k, v) d -> dim_get d k = Ok v.
Proof.
  induction d as [|[k' v'] d IH]; intros k v D I; [destruct I|]. cbn [map fst] in D. inversion D as [|? ? N D']; subst. cbn [dim_get]. destruct I as [E|I].
  - injection E as -> ->. now rewrite String.eqb_refl.
  - destruct (String.eqb_spec k k') as [->|_]; [|auto]. exfalso. apply N. apply in_map_iff. exists (k', v). auto.
Qed.
Lemma aux_dims_ok d : NoDup (map fst d) -> forall d', incl d' d -> aux_dims d (map (fun name => sfx name "'") (map fst d')) = Ok (map (fun kv => (sfx (fst kv) "'", snd kv)) d').
Proof.
  intros D. induction d' as [|[k v] d' IH]; intros I; [reflexivity|]. cbn [map fst aux_dims snd]. rewrite but_last_app, (dim_get_in d k v D) by (apply I; now left). cbn [bind]. rewrite IH by (intros z Hz; apply I; now right). reflexivity.
Qed.
Lemma dim_update_keys : forall h d, NoDup (map fst (d ++ h)) -> dim_update d h = d ++ h.
Proof.
  induction h as [|[k0 v0] h IH]; intros g D; [now rewrite app_nil_r|]. cbn [dim_update].
  assert (E : dim_set g k0 v0 = g ++ [(k0, v0)]).
  { rewrite map_app in D. cbn [map fst] in D. apply NoDup_remove_2 in D. rewrite in_app_iff in D. assert (N : ~ In k0 (map fst g)) by tauto. clear -N. induction g as [|[k v] g IH]; auto. cbn [dim_set map fst In app] in *. destruct (String.eqb_spec k0 k) as [->|E]; [tauto|]. f_equal. apply IH. tauto. }
  rewrite E. rewrite IH by (rewrite <- app_assoc; exact D). now rewrite <- app_assoc.
Qed.
Lemma primed_NoDup (d : list (string * nat)) : (forall x, In x (map fst d) -> leaf_name x) -> NoDup (map fst d) -> NoDup (map fst (d ++ map (fun kv => (sfx (fst kv) "'", snd kv)) d)).
Proof.
  intros L D. rewrite map_app, map_map. cbn [fst]. apply NoDup_app_iff. repeat split; auto.
  - rewrite <- (map_map fst (fun x => sfx x "'")). apply FinFun.Injective_map_NoDup; auto. intros x y. apply sfx_inj.
  - intros x I J. apply in_map_iff in J. destruct J as (kv & <- & _). apply L in I. pose proof (leaf_has "'"%char _ I eq_refl eq_refl) as H. rewrite has_sfx in H. discriminate H.
Qed.

Lemma pair_keys l : combine (map (fun x => sfx x "s") l) (map (fun pq => [fst pq; snd pq]) (combine l (map (fun x => sfx x "'") l))) = map (fun x => (sfx x "s", [x; sfx x "'"])) l.
Proof. rewrite combine_self, map_map. cbn [fst snd]. apply (combine_maps (fun x => sfx x "s") (fun x => [x; sfx x "'"])). Qed.

(** The tree below the name of a pair. *)
Definition pair_tree (leaves : list string) (y : string) : stree :=
  if existsb (fun x => String.eqb (sfx x "s") y) leaves then SNd y [SLf (but_last y); SLf (sfx (but_last y) "'")] else SLf y.
Lemma pair_name leaves y : sname (pair_tree leaves y) = y.
Proof. unfold pair_tree. now destruct (existsb _ _). Qed.
Lemma pair_in leaves x : In x leaves -> pair_tree leaves (sfx x "s") = SNd (sfx x "s") [SLf x; SLf (sfx x "'")].
Proof.
  intros I. unfold pair_tree. rewrite (proj2 (existsb_exists _ _)) by (exists x; split; [exact I|apply String.eqb_refl]). now rewrite but_last_app.
Qed.
Lemma pair_out leaves y : hasb "s" y = false -> pair_tree leaves y = SLf y.
Proof.
  intros H. unfold pair_tree. destruct (existsb _ _) eqn:E; [|reflexivity]. apply existsb_exists in E. destruct E as (x & _ & E). apply String.eqb_eq in E. rewrite <- E, has_sfx in H. discriminate H.
Qed.
Lemma pair_leaves leaves x y : In x (stips (pair_tree leaves y)) <->
  (exists z, In z leaves /\ y = sfx z "s" /\ (x = z \/ x = sfx z "'")) \/ (x = y /\ forall z, In z leaves -> y <> sfx z "s").
Proof.
  unfold pair_tree. destruct (existsb _ _) eqn:E.
  - apply existsb_exists in E. destruct E as (z & Iz & E). apply String.eqb_eq in E. subst y. rewrite but_last_app. cbn [stips flat_map app In]. split.
    + intros [<-|[<-|[]]]; left; exists z; auto.
    + intros [(w & Iw & E & Q)|(_ & N)]; [|exfalso; now apply (N z)]. apply sfx_inj in E. subst w. destruct Q; auto.
  - assert (N : forall z, In z leaves -> y <> sfx z "s").
    { intros z Iz Ey. assert (X : existsb (fun x => String.eqb (sfx x "s") y) leaves = true) by (apply existsb_exists; exists z; split; [exact Iz|rewrite Ey; apply String.eqb_refl]). congruence. }
    cbn [stips In]. split; [intros [<-|[]]; auto|]. intros [(z & Iz & Ey & _)|(-> & _)]; [exfalso; now apply (N z)|auto].
Qed.

Lemma plain_s x : hasb "s" x = true -> plain x.
Proof. intros H. repeat split; intros ->; discriminate H. Qed.
Lemma plain_q x : hasb "'" x = true -> plain x.
Proof. intros H. repeat split; intros ->; discriminate H. Qed.
Section WithAux.
Variables (d : list (string * nat)) (l1 l2 : list string) (fuel : nat) (bath : bool).
Notation leaves := (map fst d).
Hypothesis D : NoDup leaves.
Hypothesis L : forall x, In x leaves -> leaf_name x.
Hypothesis Le : In elec_leaf leaves.
Hypothesis I12 : forall x, In x (l1 ++ l2) -> In x leaves.
Hypothesis N1 : l1 <> []. Hypothesis N2 : l2 <> [].
Hypothesis F1 : length l1 <= fuel. Hypothesis F2 : length l2 <= fuel.
Hypothesis B : if bath then l1 = inner_leaves leaves /\ l2 = outer_leaves leaves
   else l1 = firstn (length (inner_leaves leaves) / 2) (inner_leaves leaves) /\ l2 = skipn (length (inner_leaves leaves) / 2) (inner_leaves leaves).
Notation s := (fun x => sfx x "s").
Lemma aux_gen : exists g, autograph_with_aux bath d fuel = Ok (g, "ROOT"%string, d ++ map (fun kv => (sfx (fst kv) "'", snd kv)) d) /\
  unfolds (look g) (SNd "ROOT" [pair_tree leaves "ELECs"; part (pair_tree leaves) "INNER" "AI1" (map s l1); part (pair_tree leaves) "OUTER" "AO1" (map s l2)]) /\
  forall x, tree_leaf (look g) "ROOT" x <-> exists y, In y ("ELECs"%string :: kept "INNER" "AI1" (map s l1) ++ kept "OUTER" "AO1" (map s l2)) /\ In x (stips (pair_tree leaves y)).
Proof.
  assert (M1 : map s l1 <> []) by (destruct l1; [easy|discriminate]). assert (M2 : map s l2 <> []) by (destruct l2; [easy|discriminate]).
  destruct (two_updates "ELECs" (map s l1) "AI" (map s l2) "AO" fuel M1 M2 ltac:(now rewrite map_length) ltac:(now rewrite map_length)) as (g1 & g2 & E1 & E2 & K & _).
  set (aux := map (fun x => (sfx x "s", [x; sfx x "'"])) leaves).
  pose proof (keys_NoDup "s"%char (fun x => [x; sfx x "'"]) leaves D) as Da. fold aux in Da.
  exists (update g2 aux).
  assert (Kk : forall x, In x leaves -> look (update g2 aux) (sfx x "s") = Some [x; sfx x "'"]).
  { intros x I. rewrite look_update by exact Da. unfold aux. rewrite (look_keys "s"%char (fun x => [x; sfx x "'"])) by exact I. reflexivity. }
  assert (Ko : forall k, hasb "s" k = false -> look (update g2 aux) k = two_parts "ELECs" "AI1" (map s l1) "AO1" (map s l2) k).
  { intros k H. rewrite look_update by exact Da. unfold aux. rewrite look_other; [apply K|]. intros x _ E. rewrite E, has_sfx in H. discriminate H. }
  assert (Kn : forall k, hasb "s" k = false -> plain k -> look (update g2 aux) k = None) by (intros k H P; rewrite Ko by exact H; now apply two_parts_plain).
  assert (Sub : forall x, In x leaves -> plain (sfx x "s") /\ unfolds (look (update g2 aux)) (pair_tree leaves (sfx x "s"))).
  { intros x I. split; [apply plain_s, has_sfx|]. rewrite pair_in by exact I. constructor; [cbn [map sname]; auto|].
    assert (Hs : hasb "s" x = false) by (apply leaf_has; auto).
    repeat constructor; apply Kn; auto; [apply plain_leaf; auto|rewrite hasb_app, Hs; reflexivity|apply plain_q, has_sfx]. }
  assert (Pl : forall x, In x ("ELECs"%string :: "AI1"%string :: "AO1"%string :: map s l1 ++ map s l2) -> plain x /\ unfolds (look (update g2 aux)) (pair_tree leaves x)).
  { intros x [<-|[<-|[<-|H]]].
    - apply (Sub elec_leaf Le).
    - assert (P : plain "AI1") by (repeat split; discriminate). split; [exact P|]. rewrite pair_out by reflexivity. constructor. now apply Kn.
    - assert (P : plain "AO1") by (repeat split; discriminate). split; [exact P|]. rewrite pair_out by reflexivity. constructor. now apply Kn.
    - rewrite <- map_app in H. apply in_map_iff in H. destruct H as (z & <- & H). apply Sub. auto. }
  assert (Gr : look (update g2 aux) "ROOT"%string = Some ["ELECs"; "INNER"; "OUTER"]%string) by (rewrite Ko by reflexivity; reflexivity).
  assert (Gi : look (update g2 aux) "INNER"%string = (if 2 <=? length (map s l1) then Some (kept "INNER" "AI1" (map s l1)) else None)) by (rewrite Ko by reflexivity; unfold two_parts; cbn [String.eqb Ascii.eqb Bool.eqb andb]; destruct (2 <=? length (map s l1)); reflexivity).
  assert (Go : look (update g2 aux) "OUTER"%string = (if 2 <=? length (map s l2) then Some (kept "OUTER" "AO1" (map s l2)) else None)) by (rewrite Ko by reflexivity; unfold two_parts; cbn [String.eqb Ascii.eqb Bool.eqb andb]; destruct (2 <=? length (map s l2)); reflexivity).
  split; [|split].
  - unfold autograph_with_aux.
    assert (A1 : (if bath then map s (inner_leaves leaves) else map s (firstn (length (inner_leaves leaves) / 2) (inner_leaves leaves))) = map s l1) by (destruct bath; destruct B as (-> & _); reflexivity).
    assert (A2 : (if bath then map s (outer_leaves leaves) else map s (skipn (length (inner_leaves leaves) / 2) (inner_leaves leaves))) = map s l2) by (destruct bath; destruct B as (_ & ->); reflexivity).
    cbv zeta. rewrite A1, A2. rewrite E1. cbn [bind]. rewrite E2. cbn [bind]. rewrite pair_keys. fold aux. rewrite (update_keys aux []) by exact Da. cbn [app].
    rewrite (aux_dims_ok d D d (incl_refl d)). cbn [bind]. rewrite dim_update_keys by (apply primed_NoDup; auto). reflexivity.
  - apply (auto_unfolds (look (update g2 aux)) "ELECs" "AI1" "AO1" (map s l1) (map s l2) (pair_tree leaves)); auto. apply pair_name.
  - intros x. rewrite (auto_leaves (look (update g2 aux)) "ELECs" "AI1" "AO1" (map s l1) (map s l2) (pair_tree leaves)); auto; [|apply pair_name|now apply pair_out..].
    split; [intros [H|(y & H & H')]; [exists "ELECs"%string; split; [now left|exact H]|exists y; split; [now right|exact H']]|].
    intros (y & [<-|H] & H'); [now left|right; eauto].
Qed.
Hypothesis D12 : NoDup (l1 ++ l2).
Hypothesis Lv : forall x, In x leaves -> x = elec_leaf \/ In x (l1 ++ l2).
Hypothesis Ne : ~ In elec_leaf (l1 ++ l2).
Lemma aux_complete : (forall x, In x leaves -> exists y, In y ("ELECs"%string :: kept "INNER" "AI1" (map s l1) ++ kept "OUTER" "AO1" (map s l2)) /\ In x (stips (pair_tree leaves y))) <-> length l1 = 2 /\ length l2 = 2.
Proof.
  rewrite <- (map_length s l1), <- (map_length s l2).
  assert (NoS : forall x, In x leaves -> hasb "s" x = false) by (intros x I; apply leaf_has; auto).
  rewrite <- (kept_both "INNER" "AI1" "OUTER" "AO1" (map s l1) (map s l2)).
  - split.
    + intros H y I. rewrite <- map_app in I. apply in_map_iff in I. destruct I as (x & <- & I). destruct (H x (I12 x I)) as (y & Iy & Ix). apply pair_leaves in Ix.
      assert (Ey : y = sfx x "s").
      { destruct Ix as [(z & Iz & E & [->| ->])|(E & Q)]; auto.
        - exfalso. pose proof (leaf_has "'"%char _ (L _ (I12 _ I)) eq_refl eq_refl) as X. rewrite has_sfx in X. discriminate X.
        - exfalso. subst y. assert (X : In x (l1 ++ l2)) by exact I. destruct Iy as [Iy|Iy].
          + pose proof (NoS x (I12 x X)) as Y. rewrite <- Iy in Y. discriminate Y.
          + apply in_app_iff in Iy. destruct Iy as [Iy|Iy]; apply kept_in in Iy; destruct Iy as [(Iy & _)|[(Iy & _)|Iy]]; try (pose proof (plain_leaf x (L x (I12 x X))) as (P1 & P2 & P3); contradiction);
              try (pose proof (leaf_has "A"%char x (L x (I12 x X)) eq_refl eq_refl) as Y; rewrite Iy in Y; discriminate Y);
              apply in_map_iff in Iy; destruct Iy as (z & E & _); pose proof (NoS x (I12 x X)) as Y; rewrite <- E, has_sfx in Y; discriminate Y. }
      subst y. destruct Iy as [E|Iy]; [|exact Iy]. exfalso. change "ELECs"%string with (sfx elec_leaf "s") in E. apply sfx_inj in E. subst x. contradiction.
    + intros H x I. exists (sfx x "s"). split; [|rewrite pair_in by exact I; cbn; auto]. destruct (Lv x I) as [->|J]; [now left|]. right. apply H. rewrite <- map_app. apply in_map_iff. eauto.
  - destruct l1; [easy|discriminate].
  - destruct l2; [easy|discriminate].
  - rewrite <- map_app. apply FinFun.Injective_map_NoDup; auto. intros x y. apply sfx_inj.
  - intros y I. rewrite <- map_app in I. apply in_map_iff in I. destruct I as (x & <- & I). pose proof (has_sfx "s"%char x) as X. repeat split; intros E; rewrite E in X; discriminate X.
Qed.
End WithAux.

(** ** The terms *)
Lemma in_concatM {A X} (f : A -> res (list X)) : forall l ts t, concatM f l = Ok ts -> In t ts -> exists q us, In q l /\ f q = Ok us /\ In t us.
Proof.
  induction l as [|q l IH]; intros ts t E I; cbn [concatM] in E; [injection E as <-; destruct I|]. destruct (f q) as [us|] eqn:Eq; [|discriminate E]. cbn [bind] in E. destruct (concatM f l) as [vs|] eqn:El; [|discriminate E]. injection E as <-.
  apply in_app_iff in I. destruct I as [I|I]; [exists q, us; repeat split; auto; now left|]. destruct (IH _ _ eq_refl I) as (q' & us' & A' & B & C). exists q', us'. repeat split; auto. now right.
Qed.
Lemma enum_map {A X} (f : A -> X) : forall l a, enum a (map f l) = map (fun q => (fst q, f (snd q))) (enum a l).
Proof. induction l as [|x l IH]; intros a; auto. cbn [map enum fst snd]. now rewrite IH. Qed.
Lemma enum_app {A} : forall (l r : list A) a, enum a (l ++ r) = enum a l ++ enum (a + length l) r.
Proof. induction l as [|x l IH]; intros r a; cbn [app enum length]; [now rewrite Nat.add_0_r|]. rewrite IH. f_equal. f_equal. f_equal. lia. Qed.
Lemma vib_enum prefix modes : vib_leaves prefix modes = map (fun q => ((prefix ++ str (fst q))%string, snd q)) (enum 0 (map fst modes)).
Proof. unfold vib_leaves. rewrite enum_map, map_map. reflexivity. Qed.
Lemma fst_combine {A X} : forall (l : list A) (r : list X), map fst (combine l r) = firstn (length r) l.
Proof. induction l as [|x l IH]; intros [|y r]; cbn [combine map fst length firstn]; auto. now rewrite IH. Qed.
Lemma vib_fits prefix modes q ts d : (forall n, In n (map fst modes) -> 1 <= n) -> incl (vib_leaves prefix modes) d -> In (elec_leaf, 2) d -> In q (enum 0 modes) -> vib_terms prefix q = Ok ts -> Forall (term_fits d) ts.
Proof.
  intros Hd I Ie Iq E. destruct q as [n [dim [om c]]]. assert (Hl : In ((prefix ++ str n)%string, dim) d).
  { apply I. unfold vib_leaves. apply in_map_iff. exists (n, (dim, (om, c))). auto. }
  assert (H1 : 1 <= dim). { destruct (in_enum modes 0 _ (dim, (om, c)) Iq) as (_ & Hn & En). apply Hd. cbn [fst snd] in *. apply in_map_iff. exists (dim, (om, c)). split; auto. rewrite En. apply nth_In. exact Hn. }
  unfold vib_terms in E. destruct (coordinate_entries dim om 1 1 H1) as (X & EX & SX). rewrite EX in E. cbn [bind] in E. injection E as <-.
  destruct SX as (WX & SX & _). destruct (level_entries dim om) as (WH & SH & _).
  repeat constructor; intros e He; cbn [In] in He; repeat (destruct He as [He|He]); try contradiction; subst e; cbn [fst snd].
  - exists dim. split; [exact Hl|exact SH].
  - exists dim. split; [exact Hl|exact SX].
  - exists 2. split; [exact Ie|reflexivity].
  - exists 2. split; [exact Ie|reflexivity].
Qed.
Lemma rel_fits modes q ts d : (forall n, In n (map fst modes) -> 1 <= n) -> incl (vib_leaves "I" modes) d -> In (elec_leaf, 2) d -> In q (enum 0 modes) -> rel_terms "I" q = Ok ts -> Forall (term_fits d) ts.
Proof.
  intros Hd I Ie Iq E. destruct q as [n [dim [om c]]]. assert (Hl : In (("I" ++ str n)%string, dim) d).
  { apply I. unfold vib_leaves. apply in_map_iff. exists (n, (dim, (om, c))). auto. }
  assert (H1 : 1 <= dim). { destruct (in_enum modes 0 _ (dim, (om, c)) Iq) as (_ & Hn & En). apply Hd. cbn [fst snd] in *. apply in_map_iff. exists (dim, (om, c)). split; auto. rewrite En. apply nth_In. exact Hn. }
  unfold rel_terms in E. destruct (coordinate_entries dim om 1 1 H1) as (X & EX & SX). rewrite EX in E. cbn [bind] in E. injection E as <-. destruct SX as (WX & SX & _).
  repeat constructor; intros e He; cbn [In] in He; repeat (destruct He as [He|He]); try contradiction; subst e; cbn [fst snd].
  - exists dim. split; [exact Hl|exact SX].
  - exists 2. split; [exact Ie|reflexivity].
Qed.
Lemma concat_fits {A} (f : A -> res (list (list centry))) l ts d : concatM f l = Ok ts -> (forall q us, In q l -> f q = Ok us -> Forall (term_fits d) us) -> Forall (term_fits d) ts.
Proof. intros E H. apply Forall_forall. intros t I. destruct (in_concatM f l ts t E I) as (q & us & Iq & Eq & It). specialize (H q us Iq Eq). rewrite Forall_forall in H. auto. Qed.
Lemma vib_incl prefix (modes modes' : list (nat * (R * R))) dims k k' : map fst modes = firstn k dims -> map fst modes' = firstn k' dims -> k <= k' -> incl (vib_leaves prefix modes) (vib_leaves prefix modes').
Proof.
  intros E E' L. rewrite !vib_enum, E, E'. replace (firstn k dims) with (firstn k (firstn k' dims)) by (rewrite firstn_firstn; f_equal; lia).
  rewrite <- (firstn_skipn k (firstn k' dims)) at 2. rewrite enum_app, map_app. apply incl_appl, incl_refl.
Qed.
Lemma firstn_in {A} k (l : list A) x : In x (firstn k l) -> In x l.
Proof. intros H. rewrite <- (firstn_skipn k l). apply in_app_iff. auto. Qed.
Lemma terms_fit p hs : all_terms p = Ok hs -> Forall (fun n => 1 <= n) (sp_dims p) -> (forall modes dim, sp_outer p = Some (modes, dim) -> 1 <= dim) ->
  exists d, dimensions p = Ok d /\ Forall (term_fits d) hs.
Proof.
  intros E Hd Ho. rewrite Forall_forall in Hd. unfold all_terms, inner_hamiltonian in E. destruct (inner_couplings (sp_lambdas p) (sp_omegas p)) as [cs|] eqn:Ec; [|discriminate E]. cbn [bind] in E.
  assert (Lc : length cs = length (sp_omegas p)).
  { unfold inner_couplings in Ec. destruct (Nat.eqb_spec (length (sp_lambdas p)) (length (sp_omegas p))) as [Q|]; [|discriminate Ec]. injection Ec as <-. rewrite map_length, combine_length, Q. apply Nat.min_id. }
  destruct (vibration_hamiltonian (sp_omegas p) cs (sp_dims p) "I") as [inner|] eqn:Ei; [|discriminate E]. cbn [bind] in E.
  set (im := combine (sp_dims p) (combine (sp_omegas p) cs)) in *.
  assert (Him : map fst im = firstn (length (sp_omegas p)) (sp_dims p)) by (unfold im; rewrite fst_combine, combine_length, Lc, Nat.min_id; reflexivity).
  assert (Rel : forall d relax, (match sp_relax p with Some cs => relaxation_hamiltonian (sp_omegas p) cs (sp_dims p) | None => Ok [] end) = Ok relax -> incl (vib_leaves "I" im) d -> In (elec_leaf, 2) d -> Forall (term_fits d) relax).
  { intros d relax Er Id Ie. destruct (sp_relax p) as [rs|]; [|injection Er as <-; constructor]. eapply concat_fits; [exact Er|]. intros q us Iq Eq.
    assert (Hr : map fst (combine (sp_dims p) (combine (sp_omegas p) rs)) = firstn (length (combine (sp_omegas p) rs)) (sp_dims p)) by apply fst_combine.
    eapply rel_fits; [|..|exact Iq|exact Eq].
    - intros n H. rewrite Hr in H. apply Hd. eapply firstn_in; eauto.
    - eapply incl_tran; [|exact Id]. eapply vib_incl; [exact Hr|exact Him|]. rewrite combine_length. lia.
    - exact Ie. }
  assert (Inn : forall d, incl (vib_leaves "I" im) d -> In (elec_leaf, 2) d -> Forall (term_fits d) inner).
  { intros d Id Ie. eapply concat_fits; [exact Ei|]. intros q us Iq Eq. eapply vib_fits; [|exact Id|exact Ie|exact Iq|exact Eq]. intros n H. rewrite Him in H. apply Hd. eapply firstn_in; eauto. }
  assert (El : forall d, In (elec_leaf, 2) d -> Forall (term_fits d) (electron_hamiltonian (sp_e1 p) (sp_e2 p) (sp_v p))).
  { intros d Ie. repeat constructor. intros e [<-|[]]. exists 2. split; [exact Ie|reflexivity]. }
  unfold dimensions. rewrite Ec. cbn [bind]. fold im. destruct (sp_outer p) as [[[|md modes] dim]|] eqn:Eo.
  - discriminate E.
  - cbn [outer_hamiltonian] in E. match type of E with context [vibration_hamiltonian ?a ?b ?c ?d] => destruct (vibration_hamiltonian a b c d) as [outer|] eqn:Eu; [|discriminate E] end. cbn [bind] in E.
    destruct (match sp_relax p with Some cs => relaxation_hamiltonian (sp_omegas p) cs (sp_dims p) | None => Ok [] end) as [relax|] eqn:Er; [|discriminate E]. cbn [bind] in E. injection E as <-.
    eexists. split; [cbn [bind]; reflexivity|]. set (om := combine _ _) at 1. set (d := _ :: _).
    assert (Ie : In (elec_leaf, 2) d) by now left. assert (Ii : incl (vib_leaves "I" im) d) by (apply incl_tl, incl_appl, incl_refl). assert (Io : incl (vib_leaves "O" om) d) by (apply incl_tl, incl_appr, incl_refl).
    cbn [app]. apply (Forall_app (term_fits d) (electron_hamiltonian _ _ _)). split; [auto|]. apply Forall_app. split; [auto|]. apply Forall_app. split; [|auto].
    eapply concat_fits; [exact Eu|]. intros q us Iq Eq. eapply vib_fits; [|exact Io|exact Ie|exact Iq|exact Eq]. intros n H. unfold om in H. rewrite fst_combine in H. apply firstn_in, repeat_spec in H. subst n. exact (Ho _ _ eq_refl).
  - cbn [bind] in E. destruct (match sp_relax p with Some cs => relaxation_hamiltonian (sp_omegas p) cs (sp_dims p) | None => Ok [] end) as [relax|] eqn:Er; [|discriminate E]. cbn [bind] in E. injection E as <-.
    eexists. split; [cbn [bind]; reflexivity|]. set (d := _ :: _).
    assert (Ie : In (elec_leaf, 2) d) by now left. assert (Ii : incl (vib_leaves "I" im) d) by (apply incl_tl, incl_appl, incl_refl).
    cbn [app]. apply (Forall_app (term_fits d) (electron_hamiltonian _ _ _)). split; [auto|]. apply Forall_app. split; auto.
Qed.
