(** The trees of the spin-boson model: proofs. *)
From Coq Require Import String Ascii List Arith Bool Lia Permutation Reals.
From Verif Require Import Py Alg Cplx ListX NdArray_Model Tools_Model Tools_Proof Template_Model Template_Proof Phonon_Model Spin_Model Gen_Spec HuffName_Proof TplTree_Proof SpinGraph_Model SpinGraph_Spec.
Import ListNotations.
Notation length := Datatypes.length.
Local Open Scope nat_scope.
Local Open Scope list_scope.

Lemma eqb_ok (x y : string) : String.eqb x y = true <-> x = y.
Proof. apply String.eqb_eq. Qed.
Notation look := (dlookup String.eqb).
Lemma look_set g k v k' : look (set_key g k v) k' = if String.eqb k' k then Some v else look g k'.
Proof.
  destruct (String.eqb_spec k' k) as [->|N]; [apply dlookup_dset_eq; apply eqb_ok|apply dlookup_dset_neq; [apply eqb_ok|exact N]].
Qed.

(** ** [_update] *)
Notation loop c := (huffman_loop String.eqb Nat.add 0 Nat.leb (fun _ : nat => c) 2).
Notation srt := (ssort Nat.leb).
Lemma loop_step (c : string) fuel i (sq : list (string * nat)) g : 2 <= length sq ->
  loop c (S fuel) i sq g = loop c fuel (S i) ((c, fold_left Nat.add (map snd (firstn 2 (srt sq))) 0) :: skipn 2 (srt sq)) (set_key g c (map fst (firstn 2 (srt sq)))).
Proof. destruct sq as [|[n p] [|e sq]]; cbn [length]; intros H; try lia. reflexivity. Qed.
Lemma srt_perm (sq : list (string * nat)) : Permutation (srt sq) sq.
Proof. apply ssort_perm. Qed.
Definition only_c (c : string) (g : graph) : Prop := g = [] \/ exists v, g = [(c, v)].
Lemma only_set c g v : only_c c g -> set_key g c v = [(c, v)].
Proof. intros [->|(w & ->)]; [reflexivity|]. cbn [dset]. now rewrite String.eqb_refl. Qed.
Definition item (c : string) (e : string * nat) : Prop := snd e = 1 \/ fst e = c /\ 2 <= snd e.
Lemma perm_list_sum (l l' : list nat) : Permutation l l' -> list_sum l = list_sum l'.
Proof. induction 1; unfold list_sum in *; cbn [fold_right] in *; lia. Qed.
Lemma sorted_last (a b z : string * nat) (sq : list (string * nat)) : srt sq = [a; b; z] -> snd a <= snd z /\ snd b <= snd z.
Proof.
  intros E. pose proof (Permutation_length (srt_perm sq)) as L. rewrite E in L. destruct sq as [|p [|q [|r [|? ?]]]]; try discriminate L. clear L. cbn [ssort sinsert] in E.
  destruct p as [p1 p], q as [q1 q], r as [r1 r]. cbn [snd] in E.
  destruct (q <=? r) eqn:E1; cbn [sinsert snd] in E.
  - destruct (p <=? q) eqn:E2; cbn [sinsert snd] in E; [|destruct (p <=? r) eqn:E3; cbn [sinsert snd] in E];
      injection E as <- <- <-; cbn [snd]; rewrite ?Nat.leb_le, ?Nat.leb_gt in *; lia.
  - destruct (p <=? r) eqn:E2; cbn [sinsert snd] in E; [|destruct (p <=? q) eqn:E3; cbn [sinsert snd] in E];
      injection E as <- <- <-; cbn [snd]; rewrite ?Nat.leb_le, ?Nat.leb_gt in *; lia.
Qed.
Lemma two_c c p q fuel i g : only_c c g -> loop c (S (S fuel)) i [(c, p); (c, q)] g = Ok ([(c, [c; c])], c).
Proof.
  intros G. rewrite loop_step by (cbn; lia). assert (E : map fst (firstn 2 (srt [(c, p); (c, q)])) = [c; c] /\ skipn 2 (srt [(c, p); (c, q)]) = []).
  { cbn [ssort sinsert snd]. destruct (p <=? q); cbn; auto. }
  destruct E as (-> & ->). rewrite only_set by auto. reflexivity.
Qed.
Lemma loop_cc c : forall fuel i sq g, only_c c g -> Forall (item c) sq -> 3 <= length sq -> length sq <= fuel -> 4 <= list_sum (map snd sq) ->
  loop c fuel i sq g = Ok ([(c, [c; c])], c).
Proof.
  induction fuel as [|fuel IH]; intros i sq g G F L Lf W; [lia|]. rewrite loop_step by lia.
  pose proof (srt_perm sq) as P. pose proof (Permutation_length P) as PL. pose proof (perm_list_sum _ _ (Permutation_map snd P)) as PS.
  assert (F' : Forall (item c) (srt sq)) by (eapply Permutation_Forall; [symmetry; exact P|exact F]).
  destruct (srt sq) as [|a [|b rest]] eqn:E; cbn [length] in PL; try lia. cbn [firstn skipn map fold_left].
  inversion F' as [|a0 l0 Ia F1 Ea]; subst. inversion F1 as [|b0 l1 Ib F2 Eb]; subst.
  assert (P1 : 1 <= snd a /\ 1 <= snd b) by (destruct Ia, Ib; lia).
  destruct rest as [|z [|y rest]]; [cbn [length] in PL; lia| |].
  - destruct (sorted_last a b z sq E) as (Az & Bz). inversion F2 as [|z0 l2 Iz _ Ez]; subst. destruct Iz as [Iz|(Iz & _)].
    { exfalso. cbn [map] in PS. unfold list_sum in *. cbn [fold_right] in PS. lia. }
    destruct z as [zc zp]. cbn [fst] in Iz. subst zc. destruct fuel as [|[|fuel]]; [cbn [length] in PL; lia..|]. apply two_c. right. eexists. apply only_set. exact G.
  - apply IH.
    + right. eexists. apply only_set. exact G.
    + constructor; [right; cbn [fst snd]; split; [reflexivity|lia]|exact F2].
    + cbn [length] in *. lia.
    + cbn [length] in *. lia.
    + cbn [map snd] in *. unfold list_sum in *. cbn [fold_right] in *. lia.
Qed.
(** [_update] on a list of names: what [kept] says. *)
Lemma upd_none g root prefix fuel : sb_upd g [] root prefix (S fuel) = Raise IndexError.
Proof. reflexivity. Qed.
Lemma upd_one g x root prefix fuel : sb_upd g [x] root prefix (S fuel) = Ok g.
Proof. reflexivity. Qed.
Lemma from_tree g l root prefix fuel v : huffman_tree String.eqb Nat.add 0 Nat.leb l (map (fun _ => 1) l) (fun _ => (prefix ++ "1")%string) 2 fuel = Ok ([((prefix ++ "1")%string, v)], (prefix ++ "1")%string) ->
  sb_upd g l root prefix fuel = Ok (set_key g root v).
Proof.
  intros E. unfold sb_upd, sb_update. rewrite E. cbn [bind dlookup ddel]. rewrite String.eqb_refl. cbn [dset dupdate]. reflexivity.
Qed.
Lemma upd_more g l root prefix fuel : 2 <= length l -> length l <= fuel ->
  sb_upd g l root prefix fuel = Ok (set_key g root (kept root (prefix ++ "1")%string l)).
Proof.
  intros L F. apply from_tree. set (c := (prefix ++ "1")%string). unfold huffman_tree.
  destruct l as [|x [|y [|z [|w l]]]]; cbn [length] in L, F; try lia.
  - destruct fuel as [|[|fuel]]; try lia. reflexivity.
  - destruct fuel as [|[|[|fuel]]]; try lia. cbn [map combine]. rewrite loop_step by (cbn; lia). cbn -[huffman_loop]. rewrite loop_step by (cbn; lia). cbn -[huffman_loop]. rewrite String.eqb_refl. reflexivity.
  - cbn [kept]. apply loop_cc.
    + now left.
    + apply Forall_forall. intros [n p] H. apply in_combine_r in H. left. cbn [snd]. apply in_map_iff in H. destruct H as (? & <- & _). reflexivity.
    + rewrite combine_length, map_length. cbn [length]. lia.
    + rewrite combine_length, map_length. cbn [length]. lia.
    + cbn [map combine snd]. unfold list_sum. cbn [fold_right]. lia.
Qed.

(** ** Names *)
Definition hasb (c : ascii) (s : string) : bool := existsb (Ascii.eqb c) (list_ascii_of_string s).
Lemma hasb_app c a b : hasb c (a ++ b)%string = hasb c a || hasb c b.
Proof. induction a as [|x a IH]; auto. unfold hasb in *. cbn [String.append list_ascii_of_string existsb]. rewrite IH. apply orb_assoc. Qed.
Definition digit (c : ascii) : bool := hasb c "0123456789".
Lemma has_uint c d : digit c = false -> hasb c (DecimalString.NilEmpty.string_of_uint d) = false.
Proof.
  intros H. unfold digit, hasb in H. cbn [list_ascii_of_string existsb] in H. rewrite !orb_false_iff in H. destruct H as (H0 & H1 & H2 & H3 & H4 & H5 & H6 & H7 & H8 & H9 & _).
  induction d as [|d IH|d IH|d IH|d IH|d IH|d IH|d IH|d IH|d IH|d IH]; auto; unfold hasb in *; cbn [DecimalString.NilEmpty.string_of_uint list_ascii_of_string existsb]; rewrite IH; now rewrite orb_false_r.
Qed.
Lemma has_str c n : digit c = false -> hasb c (str n) = false.
Proof. apply has_uint. Qed.
Lemma has_neq c a b : hasb c a = true -> hasb c b = false -> a <> b.
Proof. intros H H' ->. congruence. Qed.

(** Leaves of a model: the electronic one, or a letter I or O before a number. *)
Definition leaf_name (x : string) : Prop := x = "ELEC"%string \/ exists n, x = ("I" ++ str n)%string \/ x = ("O" ++ str n)%string.
Lemma leaf_has c x : leaf_name x -> digit c = false -> hasb c "ELECIO" = false -> hasb c x = false.
Proof.
  intros L D E. unfold hasb in E. cbn [list_ascii_of_string existsb] in E. rewrite !orb_false_iff in E. destruct E as (E0 & E1 & _ & E3 & E4 & E5 & _).
  destruct L as [L|(n & [L|L])]; rewrite L.
  - unfold hasb. cbn [list_ascii_of_string existsb]. now rewrite E0, E1, E3.
  - rewrite hasb_app, has_str by auto. unfold hasb. cbn [list_ascii_of_string existsb]. now rewrite E4.
  - rewrite hasb_app, has_str by auto. unfold hasb. cbn [list_ascii_of_string existsb]. now rewrite E5.
Qed.
Lemma model_named m k x : In x (model_leaves m k) -> leaf_name x.
Proof.
  intros [<-|H]; [now left|right]. apply in_app_iff in H. destruct H as [H|H]; apply in_map_iff in H; destruct H as (n & <- & _); exists n; auto.
Qed.
Lemma names_NoDup prefix m : NoDup (mode_names prefix m).
Proof.
  apply FinFun.Injective_map_NoDup; [|apply seq_NoDup]. intros a b. induction prefix as [|c prefix IH]; cbn [String.append]; intros E; [now apply str_inj|injection E as E; auto].
Qed.
Lemma leaves_NoDup m k : NoDup (model_leaves m k).
Proof.
  constructor.
  - intros H. apply in_app_iff in H. destruct H as [H|H]; apply in_map_iff in H; destruct H as (n & E & _); discriminate E.
  - apply NoDup_app_iff. repeat split; try apply names_NoDup. intros x H H'. apply in_map_iff in H, H'. destruct H as (n & <- & _), H' as (n' & E & _). discriminate E.
Qed.
Lemma filter_all {A} (f : A -> bool) l : (forall x, In x l -> f x = true) -> filter f l = l.
Proof. induction l as [|x l IH]; auto. intros H. cbn [filter]. rewrite H by now left. rewrite IH; auto. intros y Hy. apply H. now right. Qed.
Lemma filter_none {A} (f : A -> bool) l : (forall x, In x l -> f x = false) -> filter f l = [].
Proof. induction l as [|x l IH]; auto. intros H. cbn [filter]. rewrite H by now left. apply IH. intros y Hy. apply H. now right. Qed.
Lemma inner_names m k : inner_leaves (model_leaves m k) = mode_names "I" m.
Proof.
  unfold inner_leaves, model_leaves. cbn [filter String.prefix]. rewrite filter_app, filter_all, filter_none; [apply app_nil_r| |]; intros x H; apply in_map_iff in H; destruct H as (n & <- & _); cbn [String.append String.prefix]; destruct (str n); reflexivity.
Qed.
Lemma outer_names m k : outer_leaves (model_leaves m k) = mode_names "O" k.
Proof.
  unfold outer_leaves, model_leaves. cbn [filter String.prefix]. rewrite filter_app, filter_none, filter_all; [reflexivity| |]; intros x H; apply in_map_iff in H; destruct H as (n & <- & _); cbn [String.append String.prefix]; destruct (str n); reflexivity.
Qed.
Lemma names_length prefix m : length (mode_names prefix m) = m.
Proof. unfold mode_names. now rewrite map_length, seq_length. Qed.
Lemma enum_fst {A} : forall (l : list A) a, map fst (enum a l) = seq a (length l).
Proof. induction l as [|x l IH]; intros a; auto. cbn [enum map fst length seq]. f_equal. apply IH. Qed.
Lemma vib_names prefix modes : map fst (vib_leaves prefix modes) = mode_names prefix (length modes).
Proof. unfold vib_leaves, mode_names. rewrite map_map. cbn [fst]. rewrite <- (enum_fst modes 0), map_map. reflexivity. Qed.
Lemma couplings_ok p : length (sp_lambdas p) = length (sp_omegas p) -> exists cs, inner_couplings (sp_lambdas p) (sp_omegas p) = Ok cs /\ length cs = length (sp_omegas p).
Proof. intros E. unfold inner_couplings. rewrite E, Nat.eqb_refl. eexists. split; [reflexivity|]. rewrite map_length, combine_length, E. apply Nat.min_id. Qed.
Lemma dims_ok p : good p -> exists d, dimensions p = Ok d /\ map fst d = model_leaves (n_inner p) (n_outer p).
Proof.
  intros (E & O). destruct (couplings_ok p E) as (cs & Ec & Lc). unfold dimensions, n_outer. rewrite Ec. cbn [bind].
  assert (Li : length (combine (sp_dims p) (combine (sp_omegas p) cs)) = n_inner p) by (unfold n_inner; rewrite !combine_length, Lc; lia).
  destruct (sp_outer p) as [[[|md modes] dim]|]; cbn [bind].
  - exfalso. now apply (O dim).
  - eexists. split; [reflexivity|]. cbn [map fst]. unfold model_leaves. f_equal. rewrite map_app, !vib_names, Li. f_equal. f_equal. clear. rewrite combine_length, repeat_length. cbn [map combine length]. rewrite combine_length, !map_length. lia.
  - eexists. split; [reflexivity|]. cbn [map fst]. unfold model_leaves. f_equal. rewrite map_app, vib_names, Li. reflexivity.
Qed.
Lemma leaves_ok p : good p -> leaves_of p = Ok (model_leaves (n_inner p) (n_outer p)).
Proof. intros G. destruct (dims_ok p G) as (d & E & E'). unfold leaves_of. rewrite E. cbn [bind]. now rewrite E'. Qed.

(** ** Trees *)
Section Trees.
Variable g : string -> option (list string).
Lemma reach_sub r y : reach g r y -> forall T, sname T = r -> unfolds g T -> exists T', unfolds g T' /\ sname T' = y /\ incl (stips T') (stips T).
Proof.
  induction 1 as [|x l y H IH E I]; intros T Et U; [exists T; repeat split; auto; apply incl_refl|].
  destruct (IH T Et U) as (T1 & U1 & E1 & I1). destruct U1 as [s Es|s ts Es F]; cbn [sname] in E1; subst s; [congruence|]. rewrite Es in E. injection E as <-.
  apply in_map_iff in I. destruct I as (T' & E' & I'). exists T'. split; [|split; auto].
  - rewrite Forall_forall in F. auto.
  - intros z Hz. apply I1. cbn [stips]. apply in_flat_map. eauto.
Qed.
Lemma reach_trans r x y : reach g r x -> reach g x y -> reach g r y.
Proof. intros H. induction 1; auto. eapply reach_down; eauto. Qed.
Fixpoint ssize (t : stree) : nat := match t with SLf _ => 0 | SNd _ l => S (list_sum (map ssize l)) end.
Lemma in_size T ts : In T ts -> ssize T <= list_sum (map ssize ts).
Proof. induction ts as [|t ts IH]; intros []; cbn [map]; unfold list_sum in *; cbn [fold_right]; [subst; lia|specialize (IH H); lia]. Qed.
Lemma tips_reach : forall n T x, ssize T <= n -> unfolds g T -> In x (stips T) -> tree_leaf g (sname T) x.
Proof.
  induction n as [|n IH]; intros T x L U I; destruct U as [s Es|s ts Es F]; cbn [stips sname ssize] in *; try lia.
  - destruct I as [<-|[]]. split; [constructor|auto].
  - destruct I as [<-|[]]. split; [constructor|auto].
  - apply in_flat_map in I. destruct I as (T & IT & Ix). rewrite Forall_forall in F. pose proof (in_size T ts IT).
    destruct (IH T x ltac:(lia) (F T IT) Ix) as (R & N). split; auto. eapply reach_trans; [|exact R]. eapply reach_down; [apply reach_here|exact Es|]. apply in_map_iff. eauto.
Qed.
Lemma tree_leaves T x : unfolds g T -> (tree_leaf g (sname T) x <-> In x (stips T)).
Proof.
  intros U. split; [|apply (tips_reach (ssize T) T x (le_n _) U)]. intros (R & N).
  destruct (reach_sub _ _ R T eq_refl U) as (T' & U' & E' & I). apply I. destruct U' as [s Es|s ts Es F]; cbn [sname] in E'; subst s; [now left|congruence].
Qed.
End Trees.

(** Below INNER and OUTER; [sub] gives the tree below a name. *)
Definition part (sub : string -> stree) (root c : string) (l : list string) : stree :=
  match l with [_] => SLf root | _ => SNd root (map sub (kept root c l)) end.
Lemma part_name sub root c l : sname (part sub root c l) = root.
Proof. now destruct l as [|? [|? ?]]. Qed.
Lemma flat_map_map {A B C} (f : B -> list C) (g : A -> B) l : flat_map f (map g l) = flat_map (fun x => f (g x)) l.
Proof. induction l as [|x l IH]; auto. cbn [map flat_map]. now rewrite IH. Qed.
Lemma part_tips sub root c l : l <> [] -> sub root = SLf root -> stips (part sub root c l) = flat_map (fun y => stips (sub y)) (kept root c l).
Proof. intros N E. destruct l as [|x [|y l]]; [easy|cbn [kept flat_map part]; now rewrite E|]. unfold part. cbn [stips]. apply flat_map_map. Qed.
Lemma flat_leaves l : flat_map (fun y => stips (SLf y)) l = l.
Proof. induction l as [|x l IH]; auto. simpl. f_equal. exact IH. Qed.
Lemma kept_in root c l x : In x (kept root c l) -> (x = root /\ length l = 1) \/ (x = c /\ 3 <= length l) \/ In x l.
Proof.
  destruct l as [|a [|b [|d [|e l]]]]; cbn [kept In length].
  - intros [].
  - intros [<-|[]]. auto.
  - intros H. auto.
  - intros [<-|[<-|[]]]; [auto 6|]. right; left. split; [auto|lia].
  - intros [<-|[<-|[]]]; right; left; (split; [auto|lia]).
Qed.
Lemma part_unfolds (g : string -> option (list string)) sub root c l : l <> [] -> (forall x, sname (sub x) = x) ->
  g root = (if 2 <=? length l then Some (kept root c l) else None) -> (2 <= length l -> forall x, In x (kept root c l) -> unfolds g (sub x)) ->
  unfolds g (part sub root c l).
Proof.
  intros N Es E H. destruct l as [|x [|y l]]; [easy|now constructor|]. unfold part. constructor.
  - rewrite map_map. rewrite (map_ext (fun z => sname (sub z)) (fun z => z)) by exact Es. rewrite map_id. exact E.
  - apply Forall_forall. intros T I. apply in_map_iff in I. destruct I as (z & <- & I). apply H; [cbn [length]; lia|exact I].
Qed.
Lemma kept_all root c l : l <> [] -> NoDup l -> ~ In root l -> ~ In c l -> ((forall x, In x l -> In x (kept root c l)) <-> length l = 2).
Proof.
  intros N D R C. destruct l as [|a [|b [|d [|e l]]]]; [easy|..]; cbn [kept length] in *.
  - split; [|discriminate]. intros H. destruct (H a (or_introl eq_refl)) as [<-|[]]. exfalso. apply R. now left.
  - split; auto.
  - split; [|discriminate]. intros H. destruct (H a (or_introl eq_refl)) as [<-|[<-|[]]]; [|exfalso; apply C; now left].
    exfalso. inversion D as [|? ? Na]. apply Na. cbn [In]. auto.
  - split; [|discriminate]. intros H. destruct (H a (or_introl eq_refl)) as [<-|[<-|[]]]; exfalso; apply C; now left.
Qed.
(** Both lists. *)
Lemma kept_both r1 c1 r2 c2 l1 l2 : l1 <> [] -> l2 <> [] -> NoDup (l1 ++ l2) -> (forall x, In x (l1 ++ l2) -> x <> r1 /\ x <> c1 /\ x <> r2 /\ x <> c2) ->
  ((forall x, In x (l1 ++ l2) -> In x (kept r1 c1 l1 ++ kept r2 c2 l2)) <-> length l1 = 2 /\ length l2 = 2).
Proof.
  intros N1 N2 D H. apply NoDup_app_iff in D. destruct D as (D1 & D2 & X).
  assert (A : forall (r c : string) (l : list string), (forall x, In x l -> x <> r /\ x <> c) -> ~ In r l /\ ~ In c l) by (intros r c l Q; split; intros I; destruct (Q _ I); congruence).
  destruct (A r1 c1 l1) as (R1 & C1); [intros x I; destruct (H x ltac:(apply in_app_iff; auto)) as (? & ? & ? & ?); auto|].
  destruct (A r2 c2 l2) as (R2 & C2); [intros x I; destruct (H x ltac:(apply in_app_iff; auto)) as (? & ? & ? & ?); auto|].
  rewrite <- (kept_all r1 c1 l1), <- (kept_all r2 c2 l2) by auto. split.
  - intros Q. split; intros x I; specialize (Q x ltac:(apply in_app_iff; auto)); apply in_app_iff in Q; destruct Q as [Q|Q]; auto; exfalso;
      destruct (H x ltac:(apply in_app_iff; auto)) as (? & ? & ? & ?); apply kept_in in Q; destruct Q as [(Q & _)|[(Q & _)|Q]]; try contradiction; eapply X; eauto.
  - intros (Q1 & Q2) x I. apply in_app_iff in I. apply in_app_iff. destruct I; auto.
Qed.

(** ** [autograph] *)
Definition two_parts (e c1 : string) (l1 : list string) (c2 : string) (l2 : list string) (k : string) : option (list string) :=
  if String.eqb k "OUTER" && (2 <=? length l2) then Some (kept "OUTER" c2 l2)
  else if String.eqb k "INNER" && (2 <=? length l1) then Some (kept "INNER" c1 l1)
  else if String.eqb k "ROOT" then Some [e; "INNER"%string; "OUTER"%string] else None.
Lemma upd_look g l root prefix fuel : l <> [] -> length l <= fuel -> exists g', sb_upd g l root prefix fuel = Ok g' /\
  (forall k, look g' k = if String.eqb k root && (2 <=? length l) then Some (kept root (prefix ++ "1")%string l) else look g k) /\
  (forall k, In k (map fst g') -> In k (map fst g) \/ k = root).
Proof.
  intros N F. destruct l as [|x [|y l]]; [easy|..].
  - destruct fuel as [|fuel]; [cbn [length] in F; lia|]. exists g. rewrite upd_one. split; [reflexivity|]. split; [|auto]. intros k. rewrite andb_false_r. reflexivity.
  - rewrite upd_more by (cbn [length] in *; lia). eexists. split; [reflexivity|]. split.
    + intros k. rewrite look_set. cbn [length Nat.leb]. rewrite andb_true_r. reflexivity.
    + intros k. generalize (kept root (prefix ++ "1")%string (x :: y :: l)) as v. clear. intros v. induction g as [|[k' v'] g IH]; cbn [dset map fst In]; [intuition|]. destruct (String.eqb root k') eqn:E; cbn [map fst In]; intuition.
Qed.
Lemma two_updates e l1 P1 l2 P2 fuel : l1 <> [] -> l2 <> [] -> length l1 <= fuel -> length l2 <= fuel ->
  exists g1 g2, sb_upd [(root_key, [e; "INNER"%string; "OUTER"%string])] l1 "INNER" P1 fuel = Ok g1 /\ sb_upd g1 l2 "OUTER" P2 fuel = Ok g2 /\
    (forall k, look g2 k = two_parts e (P1 ++ "1")%string l1 (P2 ++ "1")%string l2 k) /\
    (forall k, In k (map fst g2) -> In k ["ROOT"; "INNER"; "OUTER"]%string).
Proof.
  intros N1 N2 F1 F2. destruct (upd_look [(root_key, [e; "INNER"%string; "OUTER"%string])] l1 "INNER" P1 fuel N1 F1) as (g1 & E1 & K1 & I1).
  destruct (upd_look g1 l2 "OUTER" P2 fuel N2 F2) as (g2 & E2 & K2 & I2). exists g1, g2. split; [exact E1|]. split; [exact E2|]. split.
  - intros k. rewrite K2, K1. reflexivity.
  - intros k H. apply I2 in H. destruct H as [H| ->]; [apply I1 in H; destruct H as [H| ->]|]; cbn in *; intuition.
Qed.
(** A graph that has these three keys and perhaps others. *)
Definition plain (x : string) : Prop := x <> "ROOT"%string /\ x <> "INNER"%string /\ x <> "OUTER"%string.
Lemma two_parts_plain e c1 l1 c2 l2 x : plain x -> two_parts e c1 l1 c2 l2 x = None.
Proof.
  intros (A & B & C). unfold two_parts. apply String.eqb_neq in A, B, C. now rewrite A, B, C.
Qed.
Section Auto.
Variable g : string -> option (list string).
Variables (e c1 c2 : string) (l1 l2 : list string) (sub : string -> stree).
Hypothesis N1 : l1 <> []. Hypothesis N2 : l2 <> [].
Hypothesis Gr : g "ROOT"%string = Some [e; "INNER"%string; "OUTER"%string].
Hypothesis Gi : g "INNER"%string = (if 2 <=? length l1 then Some (kept "INNER" c1 l1) else None).
Hypothesis Go : g "OUTER"%string = (if 2 <=? length l2 then Some (kept "OUTER" c2 l2) else None).
Hypothesis Sn : forall x, sname (sub x) = x.
Hypothesis Si : sub "INNER"%string = SLf "INNER". Hypothesis So : sub "OUTER"%string = SLf "OUTER".
Hypothesis Pl : forall x, In x (e :: c1 :: c2 :: l1 ++ l2) -> plain x /\ unfolds g (sub x).
Definition auto_tree : stree := SNd "ROOT" [sub e; part sub "INNER" c1 l1; part sub "OUTER" c2 l2].
Lemma auto_unfolds : unfolds g auto_tree.
Proof.
  assert (P : forall x, In x (c1 :: l1) \/ In x (c2 :: l2) -> plain x /\ unfolds g (sub x)).
  { intros x H. apply Pl. cbn [In] in *. rewrite in_app_iff. tauto. }
  constructor.
  - cbn [map]. rewrite !part_name, Sn. exact Gr.
  - repeat constructor.
    + apply Pl. now left.
    + apply part_unfolds; auto. intros L x H. apply kept_in in H. destruct H as [(_ & E)|[(-> & _)|H]]; [lia|..]; apply P; cbn [In]; auto.
    + apply part_unfolds; auto. intros L x H. apply kept_in in H. destruct H as [(_ & E)|[(-> & _)|H]]; [lia|..]; apply P; cbn [In]; auto.
Qed.
Lemma auto_tips : stips auto_tree = stips (sub e) ++ flat_map (fun y => stips (sub y)) (kept "INNER" c1 l1 ++ kept "OUTER" c2 l2).
Proof. unfold auto_tree. cbn [stips flat_map]. rewrite !part_tips by auto. now rewrite app_nil_r, flat_map_app. Qed.
Lemma auto_leaves x : tree_leaf g "ROOT" x <-> In x (stips (sub e)) \/ exists y, In y (kept "INNER" c1 l1 ++ kept "OUTER" c2 l2) /\ In x (stips (sub y)).
Proof. change "ROOT"%string with (sname auto_tree). rewrite (tree_leaves g auto_tree x auto_unfolds), auto_tips, in_app_iff, in_flat_map. reflexivity. Qed.
End Auto.

Lemma plain_leaf x : leaf_name x -> plain x.
Proof.
  intros L. repeat split; intros ->.
  - pose proof (leaf_has "T"%char "ROOT" L eq_refl eq_refl) as H. discriminate H.
  - pose proof (leaf_has "N"%char "INNER" L eq_refl eq_refl) as H. discriminate H.
  - pose proof (leaf_has "T"%char "OUTER" L eq_refl eq_refl) as H. discriminate H.
Qed.
Lemma auto_gen bath leaves fuel e l1 P1 l2 P2 : e = elec_leaf -> In (P1, P2) [("AI", "AO"); ("AI1", "AI2")]%string -> Forall leaf_name (l1 ++ l2) ->
  l1 <> [] -> l2 <> [] -> length l1 <= fuel -> length l2 <= fuel ->
  (if bath : bool then l1 = inner_leaves leaves /\ l2 = outer_leaves leaves /\ P1 = "AI"%string /\ P2 = "AO"%string
   else l1 = firstn (length (inner_leaves leaves) / 2) (inner_leaves leaves) /\ l2 = skipn (length (inner_leaves leaves) / 2) (inner_leaves leaves) /\ P1 = "AI1"%string /\ P2 = "AI2"%string) ->
  exists g, autograph bath leaves fuel = Ok (g, "ROOT"%string) /\
    unfolds (look g) (SNd "ROOT" [SLf elec_leaf; part SLf "INNER" (P1 ++ "1") l1; part SLf "OUTER" (P2 ++ "1") l2]) /\
    forall x, tree_leaf (look g) "ROOT" x <-> x = "ELEC"%string \/ In x (kept "INNER" (P1 ++ "1")%string l1 ++ kept "OUTER" (P2 ++ "1")%string l2).
Proof.
  intros -> HP Fl N1 N2 F1 F2 B. destruct (two_updates elec_leaf l1 P1 l2 P2 fuel N1 N2 F1 F2) as (g1 & g2 & E1 & E2 & K & _). exists g2.
  assert (Pl : forall x, In x (elec_leaf :: (P1 ++ "1")%string :: (P2 ++ "1")%string :: l1 ++ l2) -> plain x /\ unfolds (look g2) (SLf x)).
  { intros x H. assert (Q : plain x).
    { destruct H as [<-|[<-|[<-|H]]]; [apply plain_leaf; now left|..|apply plain_leaf; rewrite Forall_forall in Fl; auto];
        destruct HP as [HP|[HP|[]]]; injection HP as <- <-; repeat split; discriminate. }
    split; auto. constructor. rewrite K. now apply two_parts_plain. }
  assert (Gr : look g2 "ROOT"%string = Some [elec_leaf; "INNER"%string; "OUTER"%string]) by (rewrite K; reflexivity).
  assert (Gi : look g2 "INNER"%string = (if 2 <=? length l1 then Some (kept "INNER" (P1 ++ "1") l1) else None)) by (rewrite K; unfold two_parts; cbn [String.eqb Ascii.eqb Bool.eqb andb]; destruct (2 <=? length l1); reflexivity).
  assert (Go : look g2 "OUTER"%string = (if 2 <=? length l2 then Some (kept "OUTER" (P2 ++ "1") l2) else None)) by (rewrite K; unfold two_parts; cbn [String.eqb Ascii.eqb Bool.eqb andb]; destruct (2 <=? length l2); reflexivity).
  split; [|split].
  - unfold autograph. destruct bath.
    + destruct B as (<- & <- & -> & ->). rewrite E1. cbn [bind]. rewrite E2. reflexivity.
    + destruct B as (B1 & B2 & -> & ->). rewrite <- B1, <- B2, E1. cbn [bind]. rewrite E2. reflexivity.
  - apply (auto_unfolds (look g2) elec_leaf (P1 ++ "1") (P2 ++ "1") l1 l2 SLf); auto.
  - intros x. rewrite (auto_leaves (look g2) elec_leaf (P1 ++ "1") (P2 ++ "1") l1 l2 SLf) by auto. cbn [stips In]. unfold elec_leaf. split.
    + intros [[<-|[]]|(y & H & [<-|[]])]; auto.
    + intros [->|H]; [auto|]. right. exists x. auto.
Qed.
Lemma auto_complete P1 P2 (l1 l2 : list string) : In (P1, P2) [("AI", "AO"); ("AI1", "AI2")]%string -> Forall leaf_name (l1 ++ l2) -> NoDup (l1 ++ l2) -> ~ In "ELEC"%string (l1 ++ l2) -> l1 <> [] -> l2 <> [] ->
  ((forall x, In x ("ELEC"%string :: l1 ++ l2) -> x = "ELEC"%string \/ In x (kept "INNER" (P1 ++ "1")%string l1 ++ kept "OUTER" (P2 ++ "1")%string l2)) <-> length l1 = 2 /\ length l2 = 2).
Proof.
  intros HP Fl D Ne N1 N2. rewrite <- (kept_both "INNER" (P1 ++ "1") "OUTER" (P2 ++ "1") l1 l2); auto.
  - split.
    + intros H x I. destruct (H x (or_intror I)) as [->|Q]; [contradiction|exact Q].
    + intros H x [<-|I]; auto.
  - intros x I. rewrite Forall_forall in Fl. specialize (Fl x I). destruct (plain_leaf x Fl) as (_ & A & B). pose proof (leaf_has "A"%char x Fl eq_refl eq_refl) as HA.
    repeat split; auto; intros ->; destruct HP as [HP|[HP|[]]]; injection HP as <- <-; discriminate HA.
Qed.
