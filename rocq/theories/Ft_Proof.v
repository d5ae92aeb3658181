(** One tensor of the initial state for finite temperature. *)
From Coq Require Import String Ascii List Arith Bool Lia Ring.
From Verif Require Import Py Alg ListX NdArray_Model NdArray_Proof Contract_Model Contract_Spec Contract_Proof Net_Model Net_Spec Link_Proof Trav_Proof
  Tri_Model Tri_Spec Tri_Proof Normalize_Model Normalize_Spec Normalize_Proof Template_Model TplAuto_Proof PoDvr_Proof Ft_Model Ft_Spec.
From Verif Require Davidson_Model Davidson_Spec.
Import ListNotations.
Local Open Scope nat_scope.
Local Open Scope list_scope.

Lemma primed_spec s : primed s = true <-> partner s.
Proof.
  unfold partner. induction s as [|c s IH]; [split; [discriminate|]; intros ([|? u] & E); discriminate|].
  cbn [primed]. destruct s as [|c' s].
  - split.
    + intros E. apply Ascii.eqb_eq in E. subst c. exists EmptyString. reflexivity.
    + intros (u & E). destruct u as [|x u]; cbn [append] in E; [injection E as ->; reflexivity|]. injection E as -> E. destruct u; discriminate.
  - rewrite IH. split; intros (u & E).
    + exists (String c u). cbn [append]. now rewrite E.
    + destruct u as [|x u]; cbn [append] in E; [discriminate|]. injection E as -> E. exists u. exact E.
Qed.
Lemma primed_false s : primed s = false <-> ~ partner s.
Proof. rewrite <- primed_spec. destruct (primed s); split; intros; congruence. Qed.

Lemma single_spec {V} (l : list (list (id * V))) leaf v : single l leaf = Some v <->
  exists l1 l2, l = l1 ++ [(leaf, v)] :: l2 /\ forall u, ~ In [(leaf, u)] l1.
Proof.
  induction l as [|t l IH]; [split; [discriminate|]; intros ([|? ?] & l2 & E & _); discriminate|].
  assert (Skip : (forall u, t <> [(leaf, u)]) -> single l leaf = Some v <-> exists l1 l2, t :: l = l1 ++ [(leaf, v)] :: l2 /\ forall u, ~ In [(leaf, u)] l1).
  { intros Nt. rewrite IH. split.
    - intros (l1 & l2 & -> & N). exists (t :: l1), l2. split; auto. intros u [E|E]; [exact (Nt u E)|exact (N u E)].
    - intros ([|x l1] & l2 & E & N); cbn [app] in E; injection E as E1 E2; [exfalso; exact (Nt v E1)|]. subst. exists l1, l2. split; auto. intros u Hu. apply (N u). right; auto. }
  destruct t as [|[x w] [|y t]]; cbn [single].
  - apply Skip. discriminate.
  - destruct (Nat.eqb_spec x leaf) as [->|Ne].
    + split.
      * intros E. injection E as ->. exists [], l. split; auto.
      * intros ([|z l1] & l2 & E & N); cbn [app] in E; injection E as E1 E2; [now subst|]. subst. exfalso. apply (N w). left; auto.
    + apply Skip. intros u E. injection E as E _. auto.
  - apply Skip. discriminate.
Qed.
Lemma single_none {V} (l : list (list (id * V))) leaf : single l leaf = None <-> forall u, ~ In [(leaf, u)] l.
Proof.
  split.
  - intros E u Hu. assert (exists v, single l leaf = Some v) as (v & Ev); [|congruence]. clear E. induction l as [|t l IH]; [destruct Hu|].
    destruct t as [|[x w] [|y t]]; cbn [single]; try (destruct Hu as [Hu|Hu]; [discriminate|auto]). destruct (Nat.eqb_spec x leaf); [eauto|]. destruct Hu as [Hu|Hu]; [congruence|auto].
  - intros N. destruct (single l leaf) as [v|] eqn:E; auto. apply single_spec in E. destruct E as (l1 & l2 & -> & _). exfalso. apply (N v). apply in_app_iff. right; left; auto.
Qed.

Section P.
Variable K : StarRing.
Add Ring Kr : (r_theory K).
Notation arr := (arr K).
Notation heap := (heap K).
Local Open Scope star_scope.

(** ** The operator *)
Lemma sum_square n m (f : nat -> K) : sumn (n * m) f = sumn n (fun i => sumn m (fun j => f (i * m + j)%nat)).
Proof.
  transitivity (sumL (indices [n; m]) (fun r => f (ravel [n; m] r))).
  - rewrite <- (sumn_ravel_gen K [n; m] f). cbn [prod]. now rewrite Nat.mul_1_r.
  - rewrite sum_indices_cons. apply sumn_ext. intros i _. rewrite sum_indices_cons. apply sumn_ext. intros j _. rewrite sum_indices_nil. f_equal. cbn [ravel prod]. lia.
Qed.
Lemma div_mod_at n i j : (j < n)%nat -> ((i * n + j) / n = i /\ (i * n + j) mod n = j)%nat.
Proof.
  intros H. split; [rewrite Nat.div_add_l by lia; rewrite Nat.div_small by lia; lia|]. rewrite Nat.add_comm, Nat.mod_add by lia. apply Nat.mod_small. auto.
Qed.
Lemma get2 n m (d : list K) i j : get (mkArr [n; m] d) [i; j] = nth (i * m + j) d 0.
Proof. unfold get. cbn [shape data ravel prod]. f_equal. lia. Qed.

Lemma matvec_ok (mat : arr) n v : shape mat = [n; n] -> length v = (n * n)%nat ->
  exists w, local_matvec mat v = Ok w /\ length w = (n * n)%nat /\ forall k, (k < n * n)%nat -> nth k w 0 = times n mat v k.
Proof.
  intros Sm Lv. unfold local_matvec. rewrite Sm. unfold reshape, size. cbn [shape data prod]. replace (n * (n * 1) =? length v)%nat with true by (symmetry; apply Nat.eqb_eq; lia).
  cbn [bind]. unfold matmul. rewrite Sm. cbn [shape]. rewrite Nat.eqb_refl. cbn [bind]. eexists. split; [reflexivity|]. split.
  - unfold build. cbn [data]. rewrite map_length, length_indices. cbn [prod]. lia.
  - intros k Hk. assert (Hn : (0 < n)%nat) by (destruct n; lia). pose proof (Nat.div_mod k n ltac:(lia)) as Ek. pose proof (Nat.mod_upper_bound k n ltac:(lia)) as Hm.
    assert (Hd : (k / n < n)%nat) by (apply Nat.div_lt_upper_bound; lia).
    set (b := build [n; n] _). transitivity (get b [(k / n)%nat; (k mod n)%nat]).
    + unfold get, b. cbn [shape ravel prod build]. f_equal. lia.
    + unfold b. rewrite get_build by (repeat constructor; auto). unfold times. apply sumn_ext. intros l _. cbn [nth]. rewrite get2. reflexivity.
Qed.
Lemma matvec_bad (mat : arr) v : prod (shape mat) <> length v -> local_matvec mat v = Raise ValueError.
Proof. intros H. unfold local_matvec, reshape, size. cbn [data]. rewrite (proj2 (Nat.eqb_neq _ _)) by lia. reflexivity. Qed.

Lemma operator_hermitian (mat : arr) n : shape mat = [n; n] -> (forall i j, (i < n)%nat -> (j < n)%nat -> get mat [i; j] = rconj (get mat [j; i])) ->
  Davidson_Spec.hermitian (n * n) (operator mat).
Proof.
  intros Sm Hh u v Lu Lv. unfold Davidson_Spec.inner, operator. destruct (matvec_ok mat n u Sm Lu) as (wu & -> & _ & Gu). destruct (matvec_ok mat n v Sm Lv) as (wv & -> & _ & Gv).
  rewrite !sum_square.
  transitivity (sumn n (fun i => sumn n (fun j => sumn n (fun l => rconj (nth (i * n + j) u 0) * (get mat [i; l] * nth (l * n + j) v 0))))).
  - apply sumn_ext. intros i Hi. apply sumn_ext. intros j Hj. rewrite Gv by nia. unfold times. destruct (div_mod_at n i j Hj) as (-> & ->). rewrite sumn_scal_l. reflexivity.
  - transitivity (sumn n (fun i => sumn n (fun j => sumn n (fun l => rconj (rconj (nth (i * n + j) v 0) * (get mat [i; l] * nth (l * n + j) u 0)))))).
    + rewrite (sumn_ext K n _ (fun i => sumn n (fun l => sumn n (fun j => rconj (nth (i * n + j) u 0) * (get mat [i; l] * nth (l * n + j) v 0))))) by (intros; apply sumn_swap).
      rewrite sumn_swap. apply sumn_ext. intros l Hl. rewrite sumn_swap. apply sumn_ext. intros j Hj. apply sumn_ext. intros i Hi.
      rewrite !rconj_mul, rconj_invol, <- (Hh i l) by auto. ring.
    + rewrite rconj_sumn. apply sumn_ext. intros i Hi. rewrite rconj_sumn. apply sumn_ext. intros j Hj. rewrite Gu by nia. unfold times. destruct (div_mod_at n i j Hj) as (-> & ->).
      rewrite <- rconj_sumn, sumn_scal_l. reflexivity.
Qed.

(** ** Rows and arrays *)
Variables (nrm : list K -> K) (sqrtf inv : K -> K) (rank_of : arr -> nat) (isqrt : nat -> K) (close : list K -> list K -> bool).
Hypothesis nontrivial : (1 : K) <> 0.
Hypothesis norm_ok : forall v, ~ (forall x, (x < length v)%nat -> nth x v 0 = 0) ->
  nrm v * inv (nrm v) = 1 /\ rconj (inv (nrm v)) * inv (nrm v) * cdot v v = 1.
Hypothesis unit_norm : forall v, cdot v v = 1 -> inv (nrm v) = 1.
Hypothesis sqrt0 : sqrtf 0 = 0.
Hypothesis sqrt1 : sqrtf 1 = 1.
Hypothesis inv1 : inv 1 = 1.
Hypothesis rank_eye : forall d, rank_of (eye d d) = d.
Hypothesis isqrt_real : forall n, rconj (isqrt n) = isqrt n.
Hypothesis isqrt_ok : forall n, (0 < n)%nat -> sumn n (fun _ => isqrt n * isqrt n) = 1.
Hypothesis close_refl : forall v, close v v = true.
Notation vec_i := (@vec_i K isqrt).

Lemma vec_len n : length (vec_i n) = (n * n)%nat.
Proof. unfold Ft_Model.vec_i. rewrite map_length, seq_length. reflexivity. Qed.
Lemma vec_at n k : (k < n * n)%nat -> nth k (vec_i n) 0 = isqrt n * delta (k / n) (k mod n).
Proof.
  intros Hk. unfold Ft_Model.vec_i. set (f := fun k : nat => if (k / n =? k mod n)%nat then isqrt n else r0).
  rewrite (nth_indep _ 0 (f O)) by (rewrite map_length, seq_length; auto). rewrite (map_nth f), seq_nth by auto. cbn [Nat.add]. unfold f, delta. destruct (_ =? _)%nat; ring.
Qed.
Lemma vec_unit n : (0 < n)%nat -> sumn (n * n) (fun x => rconj (nth x (vec_i n) 0) * nth x (vec_i n) 0) = 1.
Proof.
  intros Hn. rewrite sum_square, <- (isqrt_ok n Hn). apply sumn_ext. intros i Hi.
  rewrite (sumn_ext K n _ (fun j => delta j i * (isqrt n * isqrt n * delta i j))).
  - rewrite sumn_delta by auto. unfold delta. rewrite Nat.eqb_refl. ring.
  - intros j Hj. rewrite vec_at by nia. destruct (div_mod_at n i j Hj) as (-> & ->). rewrite rconj_mul, isqrt_real. unfold delta. rewrite (Nat.eqb_sym j i). destruct (i =? j)%nat; rewrite ?rconj_1, ?rconj_0; ring.
Qed.

Lemma rows_len n p (ws rows : list (list K)) : ft_rows n p ws = Ok rows -> length rows = p.
Proof.
  unfold ft_rows. destruct (Nat.leb_spec p (length ws)) as [Le|Lt].
  - intros E. injection E as <-. rewrite firstn_length. lia.
  - destruct (_ <? _)%nat; [discriminate|]. intros E. injection E as <-. rewrite app_length, map_length, seq_length. lia.
Qed.

(** The array of the rows. *)
Lemma array_ok n p (rows : list (list K)) : length rows = p -> (0 < p)%nat -> Forall (fun r => length r = (n * n)%nat) rows -> nth 0 rows [] = vec_i n ->
  exists a, ft_array isqrt close n p rows = Ok a /\ wf a /\ shape a = [p; n; n] /\
    forall i x y, (x < n)%nat -> (y < n)%nat -> get a [i; x; y] = nth (x * n + y) (nth i rows []) 0.
Proof.
  intros Lr Hp F E0. unfold ft_array. rewrite Lr, Nat.eqb_refl. cbn [negb]. destruct rows as [|r rows]; [cbn in Lr; lia|]. cbn [nth] in E0. subst r. rewrite close_refl.
  assert (Lc : length (concat (vec_i n :: rows)) = (p * (n * n))%nat).
  { rewrite <- Lr. clear -F. induction F as [|r l Er _ IH]; [reflexivity|]. cbn [concat length]. rewrite app_length, IH, Er. lia. }
  unfold reshape, size. cbn [data]. replace (prod [p; n; n] =? length (concat (vec_i n :: rows)))%nat with true by (symmetry; apply Nat.eqb_eq; cbn [prod]; lia).
  eexists. split; [reflexivity|]. split; [unfold wf; cbn [shape data prod]; lia|]. split; [reflexivity|].
  intros i x y Hx Hy. unfold get. cbn [shape data ravel prod]. replace (i * (n * (n * 1)) + (x * (n * 1) + (y * 1 + 0)))%nat with (i * (n * n) + (x * n + y))%nat by lia.
  apply nth_concat; auto. nia.
Qed.

Lemma sum_nn n (f : nat -> nat -> K) : sumL (indices [n; n]) (fun r => f (nth 0 r O) (nth 1 r O)) = sumn n (fun x => sumn n (fun y => f x y)).
Proof. rewrite sum_indices_cons. apply sumn_ext. intros i _. rewrite sum_indices_cons. apply sumn_ext. intros j _. rewrite sum_indices_nil. reflexivity. Qed.

Lemma free_along n p (rows : list (list K)) (a : arr) : length rows = p -> free_rows (n * n) rows -> shape a = [p; n; n] ->
  (forall i x y, (x < n)%nat -> (y < n)%nat -> get a [i; x; y] = nth (x * n + y) (nth i rows []) 0) ->
  independent (indices [n; n]) p (along a 0).
Proof.
  intros Lr (F & I) Sa G c Hc. rewrite Lr in I. apply (I c). intros k Hk. apply in_seq in Hk. assert (Hn : (0 < n)%nat) by (destruct n; lia).
  pose proof (Nat.div_mod k n ltac:(lia)) as Ek. pose proof (Nat.mod_upper_bound k n ltac:(lia)) as Hm. assert (Hd : (k / n < n)%nat) by (apply Nat.div_lt_upper_bound; lia).
  etransitivity; [|apply (Hc [(k / n)%nat; (k mod n)%nat]); apply in_indices; repeat constructor; auto].
  apply sumn_ext. intros i Hi. unfold along, ins. cbn [firstn skipn app]. rewrite G by auto. do 2 f_equal. lia.
Qed.

(** ** Normalising keeps a first row of length one *)
Lemma gs_keeps (rows : list (list K)) : forall vecs norms, exists l, fst (gs_loop nrm inv rows vecs norms) = vecs ++ l.
Proof.
  induction rows as [|v rows IH]; intros vecs norms; [exists []; cbn; now rewrite app_nil_r|]. cbn [gs_loop].
  destruct (IH (vecs ++ [map (fun x => x * inv (nrm (fold_left remove_part vecs v))) (fold_left remove_part vecs v)]) (norms ++ [nrm (fold_left remove_part vecs v)])) as (l & ->).
  rewrite <- app_assoc. eauto.
Qed.
Lemma gs_first (v : list K) rows : cdot v v = 1 -> nth 0 (fst (gs_loop nrm inv (v :: rows) [] [])) [] = v.
Proof.
  intros U. cbn [gs_loop fold_left app]. destruct (gs_keeps rows [map (fun x => x * inv (nrm v)) v] [nrm v]) as (l & ->). cbn [app nth]. rewrite unit_norm by auto.
  rewrite <- (map_id v) at 2. apply map_ext. intros x. ring.
Qed.

Lemma along_first (a : arr) ax : (ax < ndim a)%nat -> Forall (fun x => (0 < x)%nat) (shape a) ->
  let sh := del ax (shape a) in let dim := nth ax (shape a) O in
  independent (indices sh) dim (along a ax) -> inner_prod (indices sh) (along a ax O) (along a ax O) = 1 ->
  exists b norms, normalize_along nrm inv a ax = Ok (b, norms) /\ wf b /\ shape b = shape a /\
    orthonormal (indices sh) dim (along b ax) /\ forall r, in_range r sh -> along b ax O r = along a ax O r.
Proof.
  intros Hax Hpos sh dim Hi U.
  destruct (along_ok K nrm inv a ax Hax Hpos nontrivial) as (b & norms & E & Wb & Sb & _ & Ho & _); auto.
  { intros v Lv Nz. apply norm_ok. rewrite Lv. exact Nz. }
  exists b, norms. split; auto. split; auto. split; auto. split; auto. intros r Hr.
  rewrite (normalize_along_eq K nrm inv a ax Hax Hpos) in E. fold sh in E.
  assert (Hd : (0 < dim)%nat). { rewrite Forall_forall in Hpos. apply Hpos. apply nth_In. exact Hax. }
  pose proof (len_rws K a ax) as Lr. fold dim in Lr. pose proof (sized_rws K a ax) as Sr. fold sh in Sr.
  destruct (rws K a ax) as [|v rows] eqn:Er; [cbn in Lr; lia|].
  assert (Uv : cdot v v = 1).
  { inversion Sr as [|? ? Lv _]; subst. rewrite (cdot_sum K (prod sh)) by auto. rewrite <- U. unfold inner_prod.
    pose proof (sum_rows K a ax (fun x => rconj (nth x v 0) * nth x v 0)) as X0. fold sh in X0. rewrite <- X0. apply sumL_ext_in. intros q Hq. apply in_indices in Hq.
    pose proof (rws_entry K a ax Hax O q Hd Hq) as X. rewrite Er in X. unfold fam in X. cbn [nth] in X. fold sh in X. unfold along. rewrite <- X. reflexivity. }
  destruct (gs_loop nrm inv (v :: rows) [] []) as (vecs, nn) eqn:Eg. cbn [fst snd] in E. pose proof (gs_first v rows Uv) as G1. rewrite Eg in G1. cbn [fst] in G1.
  assert (Lv' : length vecs = dim /\ sized K (prod sh) vecs).
  { pose proof (gs_good K (prod sh) nrm inv nontrivial (fun w Lw Nz => norm_ok w (eq_ind_r (fun m => ~ (forall x, (x < m)%nat -> nth x w 0 = 0)) Nz Lw)) (v :: rows) [] [] [] (good_nil K (prod sh)) Sr) as Gd. cbn [app] in Gd. rewrite Eg in Gd. cbn [fst snd] in Gd.
    destruct Gd as (L1 & _ & _ & S1 & _); [|rewrite <- Lr; auto]. rewrite Lr. intros c Hc. apply Hi. intros q Hq. apply in_indices in Hq as Hq'. specialize (Hc (ravel sh q)).
    etransitivity; [|apply Hc; apply in_seq; pose proof (ravel_lt sh q Hq'); lia].
    apply sumn_ext. intros i Hl. unfold along. rewrite <- Er, rws_entry by auto. reflexivity. }
  destruct (along_eq K a ax Hax Hpos vecs (proj1 Lv') (proj2 Lv')) as (b' & Eb & _ & _ & Gb). fold sh in Eb, Gb. rewrite Eb in E. cbn [bind] in E. injection E as <- <-.
  unfold along. rewrite Gb by auto. unfold fam. rewrite G1. pose proof (rws_entry K a ax Hax O r Hd Hr) as X. rewrite Er in X. unfold fam in X. cbn [nth] in X. fold sh in X. exact X.
Qed.

(** ** The end of a step *)
Lemma finish_ok (h : heap) n ax (a : arr) : (n < length h)%nat -> oaxis (hget h n) = Some ax -> (ax < ndim a)%nat -> Forall (fun x => (0 < x)%nat) (shape a) ->
  let sh := del ax (shape a) in let dim := nth ax (shape a) O in
  independent (indices sh) dim (along a ax) -> inner_prod (indices sh) (along a ax O) (along a ax O) = 1 ->
  exists b h', finish nrm sqrtf inv rank_of h n a = Ok h' /\ wf b /\ shape b = shape a /\
    orthonormal (indices sh) dim (along b ax) /\ (forall r, in_range r sh -> along b ax O r = along a ax O r) /\
    length h' = length h /\ (forall m, m <> n -> hget h' m = hget h m) /\ hget h' n = put_aux (Some (arr_conj b)) (put_arr (Some b) (hget h n)).
Proof.
  intros Hn Ex Hax Hp sh dim Hi U. destruct (along_first a ax Hax Hp Hi U) as (b & norms & E & Wb & Sb & Ho & H0). fold sh dim in Ho, H0.
  exists b. unfold finish. set (h1 := modify h n (put_arr (Some a))). assert (L1 : length h1 = length h) by apply length_modify.
  assert (H1 : hget h1 n = put_arr (Some a) (hget h n)) by (apply hget_modify_eq; auto).
  unfold normalize. rewrite H1. cbn [oarr put_arr onorm oaxis]. rewrite Ex, andb_false_r, E. cbn [bind fst snd].
  set (h2 := modify h1 n (put_arr (Some b))). assert (L2 : length h2 = length h) by (unfold h2; rewrite length_modify; auto).
  assert (H2 : hget h2 n = put_arr (Some b) (hget h n)) by (unfold h2; rewrite hget_modify_eq, H1 by lia; reflexivity).
  rewrite H2. cbn [oarr put_arr oaxis]. rewrite Ex.
  assert (Nb : ndim b = ndim a) by (unfold ndim; rewrite Sb; reflexivity).
  assert (Hb : (ax < ndim b)%nat) by lia.
  assert (Pd : nth ax (shape b) O <> O). { rewrite Sb. rewrite Forall_forall in Hp. pose proof (Hp _ (nth_In (shape a) O Hax)). lia. }
  destruct (partial_trace_ok K b ax (arr_conj b) ax) as (g & Eg & Wg & Sg & Gg); [auto|apply wf_conj; auto|exact Hb|exact Hb|reflexivity|exact Pd|exact Pd|].
  rewrite Eg. cbn [bind]. cbn [arr_conj shape] in Sg, Gg. rewrite Sb in Sg, Gg. fold dim sh in Sg, Gg.
  assert (Ge : g = eye dim dim).
  { apply arr_ext; auto; [apply wf_build|]. intros idx Hr. rewrite Sg in Hr.
    inversion Hr as [|i ? x' ? Hi1 Hx']; subst. inversion Hx' as [|j ? x'' ? Hj1 Hx'']; subst. inversion Hx''; subst.
    rewrite Gg, get_eye by auto. transitivity (@delta K j i); [|unfold delta; rewrite Nat.eqb_sym; reflexivity].
    rewrite <- (Ho j i) by auto. apply sumL_ext. intros r. rewrite get_conj. unfold along. ring. }
  assert (Gs : mkArr (shape g) (map sqrtf (data g)) = eye dim dim).
  { rewrite Ge. unfold eye, build. cbn [shape data]. f_equal. rewrite map_map. apply map_ext. intros idx. unfold delta. destruct (nth 0 idx O =? nth 1 idx O)%nat; auto. }
  rewrite Gs, rank_eye, Sb. fold dim. rewrite Nat.eqb_refl. eexists. split; [reflexivity|]. split; auto. split; auto. split; auto. split; auto. split; [rewrite length_modify; auto|]. split.
  - intros m Hm. rewrite hget_modify_neq by auto. unfold h2. rewrite hget_modify_neq by auto. unfold h1. apply hget_modify_neq. auto.
  - rewrite hget_modify_eq by lia. rewrite H2. reflexivity.
Qed.
End P.
