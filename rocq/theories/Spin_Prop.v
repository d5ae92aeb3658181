(** C54, C63, C64: the spin-boson model. *)
From Coq Require Import String Ascii List Arith Bool Lia Reals Lra ZArith.
From Verif Require Import Py Alg Cplx ListX NdArray_Model NdArray_Proof Template_Model Template_Spec Template_Proof Phonon_Model Phonon_Spec Phonon_Proof Net_Model MlInit_Model MlInit_Prop Spin_Model Spin_Spec Spin_Proof.
Import ListNotations.
Notation length := Datatypes.length.
Local Open Scope nat_scope.
Local Open Scope list_scope.

(** ** C54: collecting the electronic terms *)
(** They become one term in front of the others, and the matrix elements stay. *)
Theorem C54_collect (K : StarRing) T F td e (hs : list (list (string * arr K))) (f : T -> F) n :
  (exists t, In t hs /\ only_on e t) -> (forall a, In [(e, a)] hs -> wf a /\ shape a = [n; n]) -> td None = Ok f ->
  exists A rest, collect td e hs false = Ok (map (map as_value) ([(e, A)] :: rest), Some [[(e, f)]]) /\ others e hs rest /\
  forall leaves x y, x e < n -> y e < n -> total leaves ([(e, A)] :: rest) x y = total leaves hs x y.
Proof.
  intros H1 H2 Ht. destruct (sum_none K n (elec_arrays e hs)) as (A & E & SA & G); [apply elec_arrays_some; auto|apply elec_arrays_square; auto|].
  exists A, (left_list e hs). unfold collect. rewrite E, Ht. cbn [bind]. split; [reflexivity|]. split; [apply left_others|].
  intros leaves x y Hx Hy. rewrite (total_split K leaves e hs). cbn [total]. rewrite elem_only, G by auto. reflexivity.
Qed.
Print Assumptions C54_collect.
(** With no such term the sum is the number 0, which the solver refuses. *)
Theorem C54_none_refuted (K : StarRing) T F td e (hs : list (list (string * arr K))) (f : T -> F) :
  (forall t, In t hs -> ~ only_on e t) -> td None = Ok f ->
  exists l, collect td e hs false = Ok (l, Some [[(e, f)]]) /\ l = [(e, None)] :: map (map as_value) hs /\
  forall (K2 : StarRing) hexid fuel (h : heap K2) root use_str,
    let terms := map (map (fun p => (KStr (fst p), snd p))) l in
    ml_init (fun v => match v with None => 0 | Some a => ndim a end) (fun _ => false) hexid fuel h root terms (seq 0 (length terms)) None use_str = (terms, Raise TypeError).
Proof.
  intros H Ht. destruct (elec_arrays_none K e hs H) as (E1 & E2). eexists. unfold collect. rewrite E1, E2, Ht. cbn [sum_from bind]. split; [reflexivity|]. split; [reflexivity|].
  intros K2 hexid fuel h root use_str. apply (proj1 (C53_types K2 _ _ _ _ _ _ _ _ _ _ _)). intros (X & _). destruct (X 0 (KStr e, None)) as (_ & Y); [left; reflexivity|left; reflexivity|]. discriminate Y.
Qed.
Print Assumptions C54_none_refuted.
(** Whether or not they are absorbed in the field, the sum at every time is the same. *)
Theorem C54_absorbed e (hs : list (list centry)) at_ mu tau t_d om :
  (exists t, In t hs /\ only_on e t) -> (forall a, In [(e, a)] hs -> wf a /\ shape a = [2; 2]) ->
  at_ "mu"%string = Some mu -> at_ "tau"%string = Some tau -> at_ "t_d"%string = Some t_d -> at_ "omega"%string = Some om ->
  exists h0 f0 h1 f1, collect (td_electron at_) e hs false = Ok (map (map as_value) h0, Some [[(e, f0)]]) /\
    collect (td_electron at_) e hs true = Ok (map (map as_value) h1, Some [[(e, f1)]]) /\
  forall t, exists a0 a1, f0 t = Ok a0 /\ f1 t = Ok a1 /\
  forall leaves x y, x e < 2 -> y e < 2 ->
    total leaves (h0 ++ [[(e, a0)]]) x y = total leaves (h1 ++ [[(e, a1)]]) x y /\
    get a0 [x e; y e] = two 0 (mu * exp (- (4 * ln 2 * ((t - t_d) / tau) ^ 2)) * cos (om * (t - t_d))) (mu * exp (- (4 * ln 2 * ((t - t_d) / tau) ^ 2)) * cos (om * (t - t_d))) 0 (x e) (y e).
Proof.
  intros H1 H2 A1 A2 A3 A4. destruct (sum_none C_star 2 (elec_arrays e hs)) as (A & E & (WA & SA) & G); [apply elec_arrays_some; auto|apply elec_arrays_square; auto|].
  exists ([(e, A)] :: left_list e hs), (field at_ None), (left_list e hs), (field at_ (Some (Some A))).
  unfold collect. rewrite E. cbn [bind td_electron]. split; [reflexivity|]. split; [reflexivity|]. intros t. unfold field, getattr. rewrite A1, A2, A3, A4. cbn [bind].
  set (c := (exp (- 4 * ln 2 * ((t - t_d) / tau) ^ 2) * cos (om * (t - t_d)))%R). set (a0 := arr_scale (RtoC c) (mat2 0 mu mu 0)).
  destruct (scale_square (RtoC c) (mat2 0 mu mu 0)) as (W0 & S0); [split; reflexivity|]. fold a0 in W0, S0. rewrite arr_add_ok by (auto; congruence).
  eexists; eexists. split; [reflexivity|]. split; [reflexivity|]. intros leaves x y Hx Hy. split.
  - rewrite !total_app. cbn [total]. rewrite !elem_only. rewrite get_build by (rewrite S0; apply in_range2; auto). ring.
  - unfold a0. rewrite get_scale. destruct (mat2_entries 0 mu mu 0) as (_ & _ & Gm). rewrite Gm by auto. unfold two, c. rewrite <- RtoC_mul. f_equal.
    replace (- 4 * ln 2 * ((t - t_d) / tau) ^ 2)%R with (- (4 * ln 2 * ((t - t_d) / tau) ^ 2))%R by ring. destruct (x e) as [|[|i]], (y e) as [|[|j]]; ring.
Qed.
Print Assumptions C54_absorbed.

(** ** C63: the Hamiltonian *)
(** [cs] are the couplings that give each mode of the molecule its reorganisation energy. *)
Theorem C63_hamiltonian p cs outer relax leaves x y :
  length (sp_lambdas p) = length (sp_omegas p) -> length (sp_dims p) = length (sp_omegas p) -> length cs = length (sp_omegas p) ->
  (forall j, j < length cs -> (0 <= nth j cs 0 /\ 2 * nth j cs 0 ^ 2 / nth j (sp_omegas p) 0 ^ 2 = nth j (sp_lambdas p) 0)%R) ->
  fits "I" (sp_dims p) (sp_omegas p) x -> fits "I" (sp_dims p) (sp_omegas p) y ->
  match sp_outer p with None => outer = [] | Some (modes, dim) => outer = modes /\ modes <> [] /\ fits "O" (repeat dim (length modes)) (map fst modes) x /\ fits "O" (repeat dim (length modes)) (map fst modes) y end ->
  match sp_relax p with None => relax = [] | Some rs => relax = combine (sp_omegas p) rs /\ length rs = length (sp_omegas p) end ->
  x elec_leaf < 2 -> y elec_leaf < 2 ->
  exists A rest f, spin_model p = Ok (map (map as_value) ([(elec_leaf, A)] :: rest), Some [[(elec_leaf, f)]]) /\
    total leaves ([(elec_leaf, A)] :: rest) x y =
    spin_boson leaves elec_leaf (sp_e1 p) (sp_e2 p) (sp_v p) (named "I" (combine (sp_omegas p) cs) ++ named "O" outer) (named "I" relax) x y.
Proof.
  intros Ll Ld Lc Hc Ix Iy Ho Hr Ex Ey.
  assert (IC : inner_couplings (sp_lambdas p) (sp_omegas p) = Ok cs).
  { unfold inner_couplings. rewrite Ll, Nat.eqb_refl. f_equal. apply (nth_ext _ _ 0%R 0%R); [rewrite map_length, combine_length; lia|]. intros j Hj. rewrite map_length, combine_length in Hj.
    set (g := fun p : R * R => (sqrt (fst p / 2) * snd p)%R). rewrite (nth_indep _ 0%R (g (0, 0)%R)) by (rewrite map_length, combine_length; lia). rewrite map_nth, combine_nth by auto. unfold g. cbn [fst snd].
    destruct (Hc j) as (C0 & C1); [lia|]. destruct (Ix j) as (W & _); [lia|]. rewrite <- C1. set (c := nth j cs 0%R) in *. set (w := nth j (sp_omegas p) 0%R) in *.
    replace (2 * c ^ 2 / w ^ 2 / 2)%R with ((c / w) * (c / w))%R by (field; lra). rewrite sqrt_square; [field; lra|]. apply Rmult_le_pos; [exact C0|]. left. apply Rinv_0_lt_compat. exact W. }
  destruct (vibration_total leaves "I" (sp_dims p) (sp_omegas p) cs x y Ld Lc Ix Iy Ex Ey) as (inner & E1 & T1).
  assert (B1 : two_by_two inner) by (eapply (two_concat (vib_terms "I")); [|exact E1]; intros q ts _; apply vib_two; discriminate).
  assert (OU : exists os, match sp_outer p with Some (modes, dim) => outer_hamiltonian modes dim | None => Ok [] end = Ok os /\ two_by_two os /\ total leaves os x y = sum_of (fun m => mode_elem leaves elec_leaf m x y) (named "O" outer)).
  { destruct (sp_outer p) as [[modes dim]|]; [|subst outer; exists []; split; [reflexivity|split; [intros ? []|reflexivity]]]. destruct Ho as (-> & Hne & Ox & Oy).
    destruct (vibration_total leaves "O" (repeat dim (length modes)) (map fst modes) (map snd modes) x y) as (os & E & T); auto; rewrite ?repeat_length, ?map_length; auto.
    exists os. unfold outer_hamiltonian. destruct modes as [|m ms]; [congruence|]. split; [exact E|]. split; [eapply (two_concat (vib_terms "O")); [|exact E]; intros q ts _; apply vib_two; discriminate|].
    rewrite T. do 2 f_equal. generalize (m :: ms). clear. induction l as [|[a b] l IH]; [reflexivity|]. cbn [map combine fst snd]. rewrite IH. reflexivity. }
  destruct OU as (os & E2 & B2 & T2).
  assert (RE : exists rs, match sp_relax p with Some l => relaxation_hamiltonian (sp_omegas p) l (sp_dims p) | None => Ok [] end = Ok rs /\ two_by_two rs /\ total leaves rs x y = sum_of (fun m => relax_elem leaves elec_leaf m x y) (named "I" relax)).
  { destruct (sp_relax p) as [l|]; [|subst relax; exists []; split; [reflexivity|split; [intros ? []|reflexivity]]]. destruct Hr as (-> & Lr).
    destruct (relaxation_total_gen leaves "I" (sp_dims p) (sp_omegas p) l x y Ld Lr Ix Iy Ex Ey) as (rs & E & T). exists rs. split; [exact E|]. split; [|exact T]. eapply (two_concat (rel_terms "I")); [|exact E]. intros q ts _. apply rel_two. }
  destruct RE as (rs & E3 & B3 & T3).
  unfold spin_model, all_terms, inner_hamiltonian. rewrite IC. cbn [bind]. rewrite E1. cbn [bind]. rewrite E2. cbn [bind]. rewrite E3. cbn [bind].
  set (hs := electron_hamiltonian (sp_e1 p) (sp_e2 p) (sp_v p) ++ inner ++ os ++ rs).
  destruct (C54_collect C_star R (res (arr C_star)) (td_electron (sp_attr p)) elec_leaf hs (field (sp_attr p) None) 2) as (A & rest & E & _ & T).
  - eexists. split; [left; reflexivity|]. eexists. reflexivity.
  - intros a Ha. apply in_app_or in Ha as [[Ha|[]]|Ha]; [injection Ha as <-; split; reflexivity|]. revert Ha. apply (two_app inner (os ++ rs) B1 (two_app os rs B2 B3) a).
  - reflexivity.
  - exists A, rest, (field (sp_attr p) None). split; [exact E|]. rewrite T by auto. unfold hs, electron_hamiltonian. rewrite !total_app, T1, T2, T3. cbn [total]. rewrite elem_only. destruct (mat2_entries (sp_e1 p) (sp_v p) (sp_v p) (sp_e2 p)) as (_ & _ & Gm). rewrite Gm by auto.
    unfold spin_boson. rewrite sum_app. ring.
Qed.
Print Assumptions C63_hamiltonian.

(** A bath that is asked for with no modes is refused. *)
Theorem C63_no_modes p dim : sp_outer p = Some ([], dim) -> spin_model p = Raise ValueError.
Proof.
  intros E. unfold spin_model, all_terms. rewrite E. cbn [outer_hamiltonian bind].
  assert (I : match inner_hamiltonian (sp_omegas p) (sp_lambdas p) (sp_dims p) with Ok _ => True | Raise e => e = ValueError end).
  { unfold inner_hamiltonian, inner_couplings. destruct (_ =? _); cbn [bind]; [|reflexivity]. unfold vibration_hamiltonian. generalize (enum 0 (combine (sp_dims p) (combine (sp_omegas p) (map (fun q => (sqrt (fst q / 2) * snd q)%R) (combine (sp_lambdas p) (sp_omegas p)))))).
    induction l as [|[n [d [w c]]] l IH]; [exact I|]. cbn [concatM]. unfold vib_terms at 1, coordinate_dense, arr_add. destruct (list_eq_dec _ _ _); cbn [bind]; [|reflexivity]. destruct (concatM _ l); cbn [bind]; auto. }
  destruct (inner_hamiltonian _ _ _); cbn [bind]; [reflexivity|subst; reflexivity].
Qed.
Print Assumptions C63_no_modes.

(** ** C64: a field that was not asked for *)
(** The list of fields is never missing, but evaluating the field raises unless all four attributes are there. *)
Theorem C64_always_a_field p l fl : spin_model p = Ok (l, fl) -> exists f, fl = Some [[(elec_leaf, f)]] /\
  forall s, In s ["mu"; "tau"; "t_d"; "omega"]%string -> sp_attr p s = None -> forall t, f t = Raise AttributeError.
Proof.
  unfold spin_model. destruct (all_terms p) as [hs|]; cbn [bind]; [|discriminate]. unfold collect. destruct (sum_from _ _) as [a|]; cbn [bind]; [|discriminate]. cbn [td_electron bind]. intros E. injection E as _ <-.
  eexists. split; [reflexivity|]. intros s Hs Hn t. unfold field, getattr. destruct (sp_attr p "mu"%string) eqn:E1; cbn [bind]; [|reflexivity]. destruct (sp_attr p "tau"%string) eqn:E2; cbn [bind]; [|reflexivity].
  destruct (sp_attr p "t_d"%string) eqn:E3; cbn [bind]; [|reflexivity]. destruct (sp_attr p "omega"%string) eqn:E4; cbn [bind]; [|reflexivity]. destruct Hs as [<-|[<-|[<-|[<-|[]]]]]; congruence.
Qed.
Print Assumptions C64_always_a_field.

(** ** Examples *)
Definition h54 : list (list (string * arr Z_star)) :=
  [[("e", @mkArr Z_star [2; 2] [1; 2; 3; 4]%Z)]; [("v", @mkArr Z_star [1; 1] [7]%Z); ("e", @mkArr Z_star [2; 2] [1; 0; 0; 1]%Z)]; [("e", @mkArr Z_star [2; 2] [10; 20; 30; 40]%Z)]]%string.
Example C54_collect_ex : collect (K := Z_star) (fun _ => Ok (fun t : nat => t)) "e" h54 false
  = Ok ([[("e", Some (@mkArr Z_star [2; 2] [11; 22; 33; 44]%Z))]; [("v", Some (@mkArr Z_star [1; 1] [7]%Z)); ("e", Some (@mkArr Z_star [2; 2] [1; 0; 0; 1]%Z))]]%string, Some [[("e"%string, fun t : nat => t)]])
  /\ (exists t, In t h54 /\ only_on "e" t) /\ forall a, In [("e"%string, a)] h54 -> wf a /\ shape a = [2; 2].
Proof.
  split; [reflexivity|]. split; [eexists; split; [left; reflexivity|eexists; reflexivity]|]. intros a [H|[H|[H|[]]]]; [| discriminate H|]; injection H as <-; split; reflexivity.
Qed.
Example C54_none_refuted_ex : collect (K := Z_star) (fun _ => Ok (fun t : nat => t)) "e" [[("v"%string, @mkArr Z_star [1; 1] [7]%Z)]] false = Ok ([[("e", None)]; [("v", Some (@mkArr Z_star [1; 1] [7]%Z))]]%string, Some [[("e"%string, fun t : nat => t)]])
  /\ forall t, In t [[("v"%string, @mkArr Z_star [1; 1] [7]%Z)]] -> ~ only_on "e" t.
Proof. split; [reflexivity|]. intros t [<-|[]] (a & E). discriminate E. Qed.
(** Two modes, one outer mode, relaxation, no field: a nonzero element between the two electronic states *)
Definition p54 : spin_params := mkSpin 1 2 3 [1; 2]%R [2; 8]%R [3; 4] (Some ([(5, 6)]%R, 2)) (Some [7; 9]%R) (fun _ => None).
Definition x54 (i : nat) : config := fun s => if String.eqb s "ELEC" then i else 0.
Lemma fits_x54 i : fits "I" (sp_dims p54) (sp_omegas p54) (x54 i) /\ fits "O" (repeat 2 1) [5%R] (x54 i).
Proof.
  split; intros j Hj; cbn [length sp_omegas p54 sp_dims] in *.
  - destruct j as [|[|j]]; [| |lia]; cbn; split; try lra; lia.
  - destruct j as [|j]; [|lia]; cbn; split; try lra; lia.
Qed.
Example C63_hamiltonian_ex : exists A rest f, spin_model p54 = Ok (map (map as_value) ([(elec_leaf, A)] :: rest), Some [[(elec_leaf, f)]]) /\
  total ["ELEC"; "I0"; "I1"; "O0"]%string ([(elec_leaf, A)] :: rest) (x54 0) (x54 1) = RtoC 3 /\ forall t, f t = Raise AttributeError.
Proof.
  destruct (C63_hamiltonian p54 [1; 4]%R [(5, 6)]%R [(1, 7); (2, 9)]%R ["ELEC"; "I0"; "I1"; "O0"]%string (x54 0) (x54 1)) as (A & rest & f & E & T); try reflexivity; try apply fits_x54; try (cbn; lia).
  - intros j Hj. cbn [length] in Hj. destruct j as [|[|j]]; [| |lia]; cbn; split; lra.
  - split; [reflexivity|]. split; [discriminate|]. split; apply fits_x54.
  - split; reflexivity.
  - exists A, rest, f. split; [exact E|]. split.
    + rewrite T. apply Ceq; cbn -[sqrt]; unfold Cmul, Cadd; cbn -[sqrt]; ring.
    + destruct (C64_always_a_field p54 _ _ E) as (g & Eg & Hg). injection Eg as <-. intros t. apply (Hg "mu"%string); [left; reflexivity|reflexivity].
Qed.
Example C54_absorbed_ex : exists h0 f0 h1 f1, collect (td_electron (fun _ => Some 1%R)) "ELEC" (electron_hamiltonian 1 2 3) false = Ok (map (map as_value) h0, Some [[("ELEC"%string, f0)]]) /\
  collect (td_electron (fun _ => Some 1%R)) "ELEC" (electron_hamiltonian 1 2 3) true = Ok (map (map as_value) h1, Some [[("ELEC"%string, f1)]]) /\ exists a1, f1 1%R = Ok a1 /\ get a1 [0; 1] = RtoC 4.
Proof.
  destruct (C54_absorbed "ELEC" (electron_hamiltonian 1 2 3) (fun _ => Some 1%R) 1 1 1 1) as (h0 & f0 & h1 & f1 & E0 & E1 & H); try reflexivity.
  - eexists. split; [left; reflexivity|eexists; reflexivity].
  - intros a [Ha|[]]. injection Ha as <-. split; reflexivity.
  - exists h0, f0, h1, f1. split; [exact E0|]. split; [exact E1|]. destruct (H 1%R) as (a0 & a1 & F0 & F1 & G). exists a1. split; [exact F1|]. destruct (G ["ELEC"%string] (x54 0) (x54 1)) as (T & B); [cbn; lia|cbn; lia|].
    cbn in E0, E1. injection E0 as M0 _. injection E1 as M1 _. destruct h1; [|discriminate M1]. destruct h0 as [|[|[s a] [|]] [|]]; try discriminate M0. injection M0 as Es Ea; subst s a. revert T. cbn [app total]. rewrite !elem_only. cbn [x54 String.eqb Ascii.eqb Bool.eqb] in *. intros T.
    change (x54 0 "ELEC"%string) with 0 in *. change (x54 1 "ELEC"%string) with 1 in *. rewrite B in T. cbn [agree in_dec] in T.
    assert (X : forall c : C_star, rmul (agree ["ELEC"%string] ["ELEC"%string] (x54 0) (x54 1)) c = c) by (intros c; cbn; apply Ceq; cbn; ring). rewrite !X in T.
    replace (get a1 [0; 1]) with (radd (get a1 [0; 1]) (r0 : C_star)) by ring. rewrite <- T. unfold two. replace (1 - 1)%R with 0%R by ring. replace (- (4 * ln 2 * (0 / 1) ^ 2))%R with 0%R by field. rewrite Rmult_0_r, exp_0, cos_0. apply Ceq; cbn; ring.
Qed.
Example C64_always_a_field_ex : exists l f, spin_model (mkSpin 1 2 3 [] [] [] None None (fun _ => None)) = Ok (l, Some [[(elec_leaf, f)]]) /\ f 0%R = Raise AttributeError.
Proof. eexists. eexists. split; reflexivity. Qed.
