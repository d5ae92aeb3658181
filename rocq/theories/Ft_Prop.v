(** Property C87: the initial state for finite temperature. *)
From Coq Require Import String Ascii List Arith Bool Lia Ring ZArith QArith Qcanon Reals Lra.
From Verif Require Import Py Alg ListX NdArray_Model NdArray_Proof Contract_Model Contract_Spec Contract_Proof Net_Model Net_Spec Trav_Proof Cplx
  Normalize_Model Normalize_Spec Normalize_Proof Normalize_Prop Template_Model Template_Spec Ft_Model Ft_Spec Ft_Proof FtTree_Proof FtSearch_Proof FtThermal_Proof.
From Verif Require Davidson_Model Davidson_Spec Rk4_Prop HuffName_Proof.
Import ListNotations.
Local Open Scope nat_scope.
Local Open Scope list_scope.

(** ** The Hamiltonian of a leaf *)
(** It is the first term of the list of constant terms that acts on this leaf only, else the first such term of the list of functions,
    at time zero; terms acting on several leaves are not used. *)
Theorem C87_local :
  forall (K : StarRing) (h_list : list (list (id * arr K))) f_list leaf (a : arr K),
    (local_h h_list f_list leaf = Ok a <->
       (exists l1 l2, h_list = l1 ++ [(leaf, a)] :: l2 /\ forall u, ~ In [(leaf, u)] l1) \/
       ((forall u, ~ In [(leaf, u)] h_list) /\
        exists l1 f l2, f_list = Some (l1 ++ [(leaf, f)] :: l2) /\ (forall u, ~ In [(leaf, u)] l1) /\ a = f r0)) /\
    ((forall u, ~ In [(leaf, u)] h_list) -> (forall l f, f_list = Some l -> ~ In [(leaf, f)] l) -> local_h h_list f_list leaf = Raise RuntimeError).
Proof.
  intros K hl fl leaf a. unfold local_h. split.
  - destruct (single hl leaf) as [b|] eqn:E1.
    + pose proof (proj1 (single_spec hl leaf b) E1) as (l1 & l2 & El & Hn). split.
      * intros E. injection E as <-. left. eauto.
      * intros [(m1 & m2 & Em & Hm)|(Hno & _)].
        -- assert (E2 : single hl leaf = Some a) by (apply single_spec; eauto). congruence.
        -- exfalso. apply (Hno b). rewrite El. apply in_app_iff. right; left; auto.
    + pose proof (proj1 (single_none hl leaf) E1) as Hno. split.
      * intros E. right. split; auto. destruct fl as [l|]; [|discriminate]. destruct (single l leaf) as [f|] eqn:E2; [|discriminate]. injection E as <-.
        apply single_spec in E2. destruct E2 as (l1 & l2 & -> & Hn). exists l1, f, l2. auto.
      * intros [(m1 & m2 & -> & Hm)|(_ & l1 & f & l2 & -> & Hn & ->)]; [exfalso; apply (Hno a); apply in_app_iff; right; left; auto|].
        assert (E2 : single (l1 ++ [(leaf, f)] :: l2) leaf = Some f) by (apply single_spec; eauto). rewrite E2. reflexivity.
  - intros Hno Hf. rewrite (proj2 (single_none hl leaf) Hno). destruct fl as [l|]; [|reflexivity]. rewrite (proj2 (single_none l leaf)); [reflexivity|]. intros u. apply Hf. reflexivity.
Qed.
Print Assumptions C87_local.

(** It acts on the first of the two leaves: the vector is a matrix, multiplied from the left.  A hermitian matrix is a hermitian
    operator.  Vectors of other lengths are refused. *)
Theorem C87_action :
  forall (K : StarRing) (mat : arr K) n, shape mat = [n; n] ->
    (forall v, length v = n * n -> exists w, local_matvec mat v = Ok w /\ length w = n * n /\ forall k, k < n * n -> nth k w r0 = times n mat v k) /\
    (forall v, length v <> n * n -> local_matvec mat v = Raise ValueError) /\
    ((forall i j, i < n -> j < n -> get mat [i; j] = rconj (get mat [j; i])) -> Davidson_Spec.hermitian (n * n) (operator mat)).
Proof.
  intros K mat n Sm. split; [intros v Lv; apply matvec_ok; auto|]. split; [|apply operator_hermitian; auto].
  intros v Lv. apply matvec_bad. rewrite Sm. cbn [prod]. lia.
Qed.
Print Assumptions C87_action.

(** ** Without entanglement *)
(** The two procedures of this name agree then, whatever the Hamiltonian and the solver are. *)
Theorem C87_plain :
  forall (K : StarRing) nrm sqrtf inv rank_of isqrt close lib max_cycle max_space h_list f_list bonds fuel (h : heap K) root,
    ft_autocomplete nrm sqrtf inv rank_of isqrt close lib max_cycle max_space h_list f_list bonds false fuel h root = autocomplete nrm sqrtf inv rank_of fuel h root bonds.
Proof.
  intros. unfold ft_autocomplete, autocomplete. destruct (visitor fuel h root _ false) as [l|]; cbn [bind]; [|reflexivity]. rewrite loop_plain. reflexivity.
Qed.
Print Assumptions C87_plain.

(** ** The vectors of a pair *)
(** The search gives orthonormal vectors, the first being the maximally entangled one.  If there are enough, the first of them are the
    rows of the array, and they are independent.  A single row is always found. *)
Theorem C87_search :
  forall (K : StarRing) (isqrt : nat -> K), (forall n, rconj (isqrt n) = isqrt n) -> (forall n, 0 < n -> sumn n (fun _ => rmul (isqrt n) (isqrt n)) = r1) ->
  forall lib, library_ok lib -> forall max_cycle max_space n p (mat : arr K), 0 < n -> 0 < p -> shape mat = [n; n] ->
    (forall i j, i < n -> j < n -> get mat [i; j] = rconj (get mat [j; i])) ->
    exists ws, found isqrt lib (S max_cycle) max_space n p mat = Ok (vec_i isqrt n :: ws) /\
      (forall x y, x < n -> y < n -> nth (x * n + y) (vec_i isqrt n) r0 = rmul (isqrt n) (delta x y)) /\
      Davidson_Spec.orthonormal (n * n) (vec_i isqrt n :: ws) /\
      (p <= S (length ws) -> ft_rows n p (vec_i isqrt n :: ws) = Ok (firstn p (vec_i isqrt n :: ws)) /\ free_rows (n * n) (firstn p (vec_i isqrt n :: ws))).
Proof.
  intros K isqrt Ir Io lib Hl mc ms n p mat Hn Hp Sm Hh. destruct (search_ok K isqrt Ir Io lib Hl mc ms n p mat Hn Hp Sm Hh) as (ws & E & O & F).
  exists ws. split; auto. split.
  - intros x y Hx Hy. rewrite vec_at by nia. destruct (div_mod_at n x y Hy) as (-> & ->). reflexivity.
  - split; auto. intros Hle. unfold ft_rows. rewrite (proj2 (Nat.leb_le _ _)) by (cbn [length]; lia). split; auto.
    apply on_free; [apply on_firstn; auto|]. apply Forall_forall. intros r Hr. rewrite Forall_forall in F. apply F. rewrite <- (firstn_skipn p (vec_i isqrt n :: ws)). apply in_app_iff. auto.
Qed.
Print Assumptions C87_search.

(** With too few vectors the first unit vectors are appended.  This does not make a basis: for a diagonal Hamiltonian all vectors found
    are diagonal, at most [n] of them are independent, and the first unit vector is diagonal too. *)
Theorem C87_padding_refuted :
  forall (K : StarRing), (r1 : K) <> r0 -> (forall x : K, x = r0 \/ exists y, rmul x y = r1) ->
  forall isqrt lib, library_ok lib -> forall max_cycle max_space n p (mat : arr K) ws rows,
    0 < n -> shape mat = [n; n] -> (forall i j, i < n -> j < n -> i <> j -> get mat [i; j] = r0) ->
    (forall r e u, on_diagonal n r -> on_diagonal n (Davidson_Model.precond_std (lib (n * n) (operator mat)) r e u)) ->
    found isqrt lib (S max_cycle) max_space n p mat = Ok ws ->
    Forall (on_diagonal n) ws /\ (length ws = n -> n < p -> ft_rows n p ws = Ok rows -> ~ free_rows (n * n) rows).
Proof.
  intros K Nt Fd isqrt lib Hl mc ms n p mat ws rows Hn Sm Dm Pk E.
  assert (D : Forall (on_diagonal n) ws) by (apply (search_diagonal K isqrt lib Hl mc ms n p mat ws); auto; intros v; apply operator_other; auto).
  split; auto. intros Lw Hp Er. eapply padded_dependent; eauto.
Qed.
Print Assumptions C87_padding_refuted.

(** ** The whole network *)
(** What is asked of a pair below tensor [n] whose Hamiltonian is that of leaf [c]. *)
Definition pair_ok {K : StarRing} (isqrt : nat -> K) lib max_cycle max_space h_list f_list (B : id -> nat) (n c : id) : Prop :=
  exists mat, local_h h_list f_list c = Ok mat /\ shape mat = [B c; B c] /\
    (forall i j, i < B c -> j < B c -> get mat [i; j] = rconj (get mat [j; i])) /\ B n <= B c * B c /\
    forall ws rows, found isqrt lib max_cycle max_space (B c) (B n) mat = Ok ws -> ft_rows (B c) (B n) ws = Ok rows -> free_rows (B c * B c) rows.
(** A network without arrays, the tree [t], with the lengths [B] of the links. *)
Definition empty_net {K : StarRing} (h : heap K) (B : id -> nat) (ok : id -> id -> Prop) (bonds : list (edge * nat)) (t : tree) : Prop :=
  hangs h None t /\ purified_root h B ok t /\ NoDup (ids t) /\ (forall n, In n (ids t) -> n < length h /\ oarr (hget h n) = None /\ check_completness h n false = Ok tt) /\
  (forall e, In e (edges t) -> bget bonds e = Ok (B (snd (fst e)))).
Lemma purified_mono {K : StarRing} (h : heap K) B (ok ok' : id -> id -> Prop) : (forall n a b c, pair_node h B n a b c -> ok n c -> ok' n c) ->
  forall t j, purified h B ok j t -> purified h B ok' j t.
Proof.
  intros H. induction t as [x|x ks IH] using tree_ind'; intros j Pf; inversion Pf as [|? a' b' c ja jb Pn Ho|? ? ? Ox Hx Ki Ei P1 P2 F]; subst.
  - constructor; auto.
  - eapply pf_pair; eauto.
  - apply pf_node; auto. clear -IH F. induction IH as [|k ks Hk _ IHl]; [constructor|]. inversion F; subst. constructor; auto.
Qed.
Lemma rows_first {K : StarRing} n p (v : list K) ws rows : 0 < p -> ft_rows n p (v :: ws) = Ok rows -> nth 0 rows [] = v.
Proof.
  intros Hp. unfold ft_rows. destruct (_ <=? _); [intros E; injection E as <-; destruct p; [lia|reflexivity]|]. destruct (_ <? _); [discriminate|]. intros E. injection E as <-. reflexivity.
Qed.
Lemma pair_okp {K : StarRing} (isqrt : nat -> K) lib max_cycle max_space h_list f_list (h : heap K) B :
  (forall n, rconj (isqrt n) = isqrt n) -> (forall n, 0 < n -> sumn n (fun _ => rmul (isqrt n) (isqrt n)) = r1) -> library_ok lib ->
  forall n a b c, pair_node h B n a b c -> pair_ok isqrt lib (S max_cycle) max_space h_list f_list B n c -> okp K isqrt lib (S max_cycle) max_space h_list f_list B n c.
Proof.
  intros Ir Io Hl n a b c (_ & Pn & Pa & Eb & sa & sb & _ & _ & Hc) (mat & El & Sm & Hh & Hle & Hf).
  assert (Pc : 0 < B c) by (destruct Hc as [(-> & _)|(-> & _)]; lia).
  destruct (search_ok K isqrt Ir Io lib Hl max_cycle max_space (B c) (B n) mat Pc Pn Sm Hh) as (ws & E & _ & _).
  assert (exists rows, ft_rows (B c) (B n) (vec_i isqrt (B c) :: ws) = Ok rows) as (rows & Er).
  { unfold ft_rows. destruct (_ <=? _); [eauto|]. rewrite (proj2 (Nat.ltb_ge _ _)) by (cbn [length]; lia). eauto. }
  exists rows, mat, (vec_i isqrt (B c) :: ws). refine (conj El (conj E (conj Er (conj _ _)))); [exact (rows_first (B c) (B n) _ _ _ Pn Er)|exact (Hf _ _ E Er)].
Qed.

(** Every pair gets the maximally entangled state, all other leaves their first state. *)
Theorem C87_state_any_scalars :
  forall (K : StarRing) (nrm : list K -> K) (sqrtf inv : K -> K) (rank_of : arr K -> nat) (isqrt : nat -> K) (close : list K -> list K -> bool),
    (r1 : K) <> r0 ->
    (forall v, ~ (forall x, x < length v -> nth x v r0 = r0) -> rmul (nrm v) (inv (nrm v)) = r1 /\
       rmul (rmul (rconj (inv (nrm v))) (inv (nrm v))) (sumn (length v) (fun x => rmul (rconj (nth x v r0)) (nth x v r0))) = r1) ->
    (forall v, sumn (length v) (fun x => rmul (rconj (nth x v r0)) (nth x v r0)) = r1 -> inv (nrm v) = r1) ->
    sqrtf r0 = r0 -> sqrtf r1 = r1 -> inv r1 = r1 -> (forall n, rank_of (eye n n) = n) ->
    (forall n, rconj (isqrt n) = isqrt n) -> (forall n, 0 < n -> sumn n (fun _ => rmul (isqrt n) (isqrt n)) = r1) -> (forall v, close v v = true) ->
  forall lib, library_ok lib -> forall max_cycle max_space h_list f_list bonds (h : heap K) B t fuel,
    empty_net h B (pair_ok isqrt lib (S max_cycle) max_space h_list f_list B) bonds t -> height t <= fuel ->
    exists h', ft_autocomplete nrm sqrtf inv rank_of isqrt close lib (S max_cycle) max_space h_list f_list bonds true fuel h (top t) = Ok h' /\
      hangs h' None t /\ (forall n, ~ In n (nids t) -> hget h' n = hget h n) /\ (forall n, In n (nids t) -> exists a, oarr (hget h' n) = Some a) /\
      fits (array_at h') None 0 t /\ ldims (array_at h') None 0 t = map B (lids t) /\
      forall v, in_range v (map B (lids t)) -> dense (array_at h') t v = entangled (fun a => isqrt (B a)) t (asg (lids t) v).
Proof.
  intros K nrm sqrtf inv rank_of isqrt close Nt Hn Hu S0 S1 I1 Re Ir Io Cr lib Hl mc ms hl fl bonds h B t fuel (Hh & Pr & Nd & Hi & He) Hf.
  apply state_ok; auto.
  - intros v Hv. rewrite (cdot_sum K (length v)) by auto. apply Hn. exact Hv.
  - intros v Hv. apply Hu. rewrite <- (cdot_sum K (length v)) by auto. exact Hv.
  - destruct Pr as (n & ks & E & Ox & Ki & Ei & F). exists n, ks. split; auto. split; auto. split; auto. split; auto. eapply Forall_impl; [|exact F]. intros k. apply purified_mono.
    intros. eapply pair_okp; eauto.
  - intros n Hin. apply Hi. auto.
  - intros n Hin. apply Hi. auto.
  - intros n Hin. apply Hi. auto.
Qed.
Print Assumptions C87_state_any_scalars.

(** The same over the complex numbers. *)
Definition isqrtC (n : nat) : C_star := RtoC (/ sqrt (INR n)).
Lemma isqrtC_sq n : 0 < n -> rmul (isqrtC n) (isqrtC n) = RtoC (/ INR n).
Proof.
  intros H. assert (P : (0 < INR n)%R) by (apply lt_0_INR; auto). pose proof (sqrt_lt_R0 _ P) as Q. unfold isqrtC. rewrite <- RtoC_mul. f_equal.
  rewrite <- (sqrt_sqrt (INR n)) at 3 by lra. field. lra.
Qed.
Lemma sum_RtoC n r : sumn n (fun _ => RtoC r : C_star) = RtoC (INR n * r).
Proof.
  induction n as [|n IH]; [rewrite sumn_0; cbn [INR]; rewrite Rmult_0_l; reflexivity|]. rewrite sumn_S, IH, <- RtoC_add, S_INR. f_equal. ring.
Qed.
Lemma isqrtC_ok n : 0 < n -> sumn n (fun _ => rmul (isqrtC n) (isqrtC n)) = r1.
Proof.
  intros H. rewrite isqrtC_sq by auto. rewrite sum_RtoC. rewrite Rinv_r; [reflexivity|]. apply not_0_INR. lia.
Qed.
Theorem C87_state :
  forall (rank_of : arr C_star -> nat) close, (forall n, rank_of (eye n n) = n) -> (forall v, close v v = true) ->
  forall lib, library_ok lib -> forall max_cycle max_space h_list f_list bonds (h : heap C_star) B t fuel,
    empty_net h B (pair_ok isqrtC lib (S max_cycle) max_space h_list f_list B) bonds t -> height t <= fuel ->
    exists h', ft_autocomplete vnorm Csqrt Cinv rank_of isqrtC close lib (S max_cycle) max_space h_list f_list bonds true fuel h (top t) = Ok h' /\
      hangs h' None t /\ (forall n, ~ In n (nids t) -> hget h' n = hget h n) /\
      fits (array_at h') None 0 t /\ ldims (array_at h') None 0 t = map B (lids t) /\
      forall v, in_range v (map B (lids t)) -> dense (array_at h') t v = entangled (fun a => RtoC (/ sqrt (INR (B a)))) t (asg (lids t) v).
Proof.
  intros rank_of close Re Cr lib Hl mc ms hl fl bonds h B t fuel He Hf.
  destruct (C87_state_any_scalars C_star vnorm Csqrt Cinv rank_of isqrtC close) with (lib := lib) (max_cycle := mc) (max_space := ms) (h_list := hl) (f_list := fl) (bonds := bonds) (h := h) (B := B) (t := t) (fuel := fuel)
    as (h' & E & H1 & H2 & _ & H4 & H5 & H6); auto.
  - exact C_nontrivial.
  - exact vnorm_ok.
  - intros v Uv. unfold vnorm. rewrite Uv. cbn [fst r1 C_star]. rewrite sqrt_1. apply Cinv_1.
  - change (r0 : C_star) with (RtoC 0). rewrite Csqrt_pos by lra. rewrite sqrt_0. reflexivity.
  - change (r1 : C_star) with (RtoC 1). rewrite Csqrt_pos by lra. rewrite sqrt_1. reflexivity.
  - exact Cinv_1.
  - intros n. apply RtoC_conj.
  - intros n Hn. apply isqrtC_ok. auto.
  - exists h'. auto 8.
Qed.
Print Assumptions C87_state.

(** ** Temperature *)
(** When all leaves are in pairs, the partial trace over the second leaves is the identity over the number of states: the state of
    infinite temperature, from which one of finite temperature is reached in imaginary time. *)
Theorem C87_thermal :
  forall (rank_of : arr C_star -> nat) close, (forall n, rank_of (eye n n) = n) -> (forall v, close v v = true) ->
  forall lib, library_ok lib -> forall max_cycle max_space h_list f_list bonds (h : heap C_star) B t fuel,
    empty_net h B (pair_ok isqrtC lib (S max_cycle) max_space h_list f_list B) bonds t -> height t <= fuel -> lone t = [] ->
    exists h', ft_autocomplete vnorm Csqrt Cinv rank_of isqrtC close lib (S max_cycle) max_space h_list f_list bonds true fuel h (top t) = Ok h' /\
      let dims := map (fun p => B (fst p)) (pairs t) in let d := dense (array_at h') t in
      lids t = flat_map (fun p => [fst p; snd p]) (pairs t) /\
      (forall x y, in_range x dims -> in_range y dims -> in_range (weave x y) (map B (lids t))) /\
      forall x x', in_range x dims -> in_range x' dims ->
        sumL (indices dims) (fun y => rmul (d (weave x y)) (rconj (d (weave x' y)))) = if list_eq_dec Nat.eq_dec x x' then RtoC (/ INR (prod dims)) else r0.
Proof.
  intros rank_of close Re Cr lib Hl mc ms hl fl bonds h B t fuel He Hf Lo.
  destruct (C87_state rank_of close Re Cr lib Hl mc ms hl fl bonds h B t fuel He Hf) as (h' & E & _ & _ & _ & _ & Hd). exists h'. split; auto. intros dims d.
  assert (Nl : NoDup (lids t)).
  { destruct He as (_ & _ & N & _). clear -N. assert (LI : forall (u : tree) z, In z (lids u) -> In z (ids u)).
    { intros u z. induction u as [x|x kk IH] using tree_ind'; auto. intros H. right. cbn [lids] in H. apply in_flat_map in H. destruct H as (k & Hk & H). apply in_flat_map. exists k. rewrite Forall_forall in IH. auto. }
    induction t as [x|x ks IH] using tree_ind'; [auto|]. cbn [ids lids] in *. apply NoDup_cons_iff in N. destruct N as (_ & N). induction IH as [|k ks Hk _ IHl]; [constructor|]. cbn [flat_map] in *.
    apply HuffName_Proof.NoDup_app_iff in N. destruct N as (A1 & A2 & A3). apply HuffName_Proof.NoDup_app_iff. split; auto. split; auto. intros z Hz Hz'. apply (A3 z); auto. apply in_flat_map in Hz'. destruct Hz' as (q & Hq & Hz'). apply in_flat_map. eauto. }
  split; [apply lids_pairs; auto|]. destruct He as (Hh & Pr & He). pose proof (root_same C_star h B _ t Pr) as Rs.
  destruct (thermal C_star (fun a => isqrtC (B a)) B t d Lo Nl Rs) as (W & T); [intros v Hv; apply Hd; auto|]. split; [exact W|]. intros x x' Hx Hx'. destruct (T x x' Hx Hx') as (T1 & T2).
  destruct (list_eq_dec Nat.eq_dec x x') as [Eq|Ne]; [|apply T2; auto]. etransitivity; [exact (T1 Eq)|].
  assert (Pp : forall p, In p (pairs t) -> 0 < B (fst p)). { intros p Hp. unfold dims in Hx. assert (In (B (fst p)) (map (fun p => B (fst p)) (pairs t))) by (apply in_map_iff; eauto). clear -Hx H. induction Hx; [destruct H|]. destruct H as [<-|H]; auto. lia. }
  clear -Pp. unfold dims. induction (pairs t) as [|p ps IH]; [rewrite prodL_nil; cbn [map prod]; change (INR 1) with 1%R; rewrite Rinv_1; reflexivity|].
  rewrite prodL_cons, IH by (intros; apply Pp; right; auto). unfold isqrtC at 2. rewrite RtoC_conj. fold (isqrtC (B (fst p))). rewrite isqrtC_sq by (apply Pp; left; auto). rewrite <- RtoC_mul. f_equal.
  cbn [map prod]. rewrite mult_INR. assert (P1 : (0 < INR (B (fst p)))%R) by (apply lt_0_INR, Pp; left; auto).
  assert (P2 : (0 < INR (prod (map (fun p => B (fst p)) ps)))%R). { apply lt_0_INR. clear -Pp. induction ps as [|q ps IH]; [cbn; lia|]. cbn [map prod]. apply Nat.mul_pos_pos; [apply Pp; right; left; auto|]. apply IH. intros r [->|Hr]; apply Pp; [left; auto|right; right; auto]. }
  field. lra.
Qed.
Print Assumptions C87_thermal.

(** ** Networks that are refused *)
Theorem C87_refused :
  forall (K : StarRing) nrm sqrtf inv rank_of isqrt close lib max_cycle max_space h_list f_list bonds (h : heap K) prev t,
    oarr (hget h t) = None -> children h t (oaxis (hget h t)) false = [] ->
    let step := ft_step nrm sqrtf inv rank_of isqrt close lib max_cycle max_space h_list f_list bonds true h prev t in
    let cs := children h t (oaxis (hget h t)) true in
    (length cs <> 2 \/ oaxis (hget h t) = None -> step = Raise RuntimeError) /\
    (forall ax x1 x2 s1, oaxis (hget h t) = Some ax -> cs = [x1; x2] ->
       (oname (hget h (snd (fst x1))) = None -> step = Raise AttributeError) /\
       (oname (hget h (snd (fst x1))) = Some s1 -> partner s1 ->
          (oname (hget h (snd (fst x2))) = None -> step = Raise AttributeError) /\
          (forall s2, oname (hget h (snd (fst x2))) = Some s2 -> partner s2 -> prev = None -> step = Raise UnboundLocalError))).
Proof.
  intros K nrm sqrtf inv rank_of isqrt close lib mc ms hl fl bonds h prev t Ea Ec step cs. unfold step, ft_step. rewrite Ea, Ec. cbn [length Nat.eqb andb]. fold cs. split.
  - intros [Ne|Ex]; [rewrite (proj2 (Nat.eqb_neq _ _) Ne); reflexivity|]. destruct (negb _); [reflexivity|]. rewrite Ex. reflexivity.
  - intros ax [[i1 c1] j1] [[i2 c2] j2] s1 Ex E2. rewrite E2, Ex. cbn [length Nat.eqb negb pick fst snd]. split; [intros ->; reflexivity|].
    intros -> P1. rewrite (proj2 (primed_spec s1) P1). split; [intros ->; reflexivity|]. intros s2 -> P2 ->. rewrite (proj2 (primed_spec s2) P2). reflexivity.
Qed.
Print Assumptions C87_refused.

(** When both leaves are partners and a tensor was completed before, its number of states and the second leaf are used. *)
Theorem C87_leftover_refuted :
  forall (K : StarRing) bonds (h : heap K) t m x1 x2 s1 s2,
    oname (hget h (snd (fst x1))) = Some s1 -> oname (hget h (snd (fst x2))) = Some s2 -> partner s1 -> partner s2 ->
    pick bonds h t (Some m) None [x1; x2] = Ok (m, snd (fst x2)).
Proof.
  intros K bonds h t m [[i1 c1] j1] [[i2 c2] j2] s1 s2 E1 E2 P1 P2. cbn [pick fst snd] in *. rewrite E1, E2. rewrite (proj2 (primed_spec s1) P1), (proj2 (primed_spec s2) P2). reflexivity.
Qed.
Print Assumptions C87_leftover_refuted.

(** The array of a pair has the axis of the parent first, whichever axis is linked to the parent. *)
Theorem C87_first_axis :
  forall (K : StarRing) isqrt close n p rows (a : arr K), ft_array isqrt close n p rows = Ok a -> shape a = [p; n; n].
Proof.
  intros K isqrt close n p rows a. unfold ft_array. destruct (negb _); [discriminate|]. destruct rows as [|r rows]; [discriminate|]. destruct (close r _); [|discriminate].
  unfold reshape. destruct (_ =? _); [|discriminate]. intros E. injection E as <-. reflexivity.
Qed.
Print Assumptions C87_first_axis.

(** ** Examples *)
(** Over the rationals, for four states: 1/sqrt(4) = 1/2. *)
Definition Qs : StarRing := Rk4_Prop.Qc_star.
Definition qi (z : Z) : Qs := Q2Qc (inject_Z z).
Definition half_of (n : nat) : Qs := if n =? 4 then Q2Qc (1 # 2) else qi 1.
Definition qeq (x y : Qs) : bool := Qc_eq_bool x y.
Definition bigQ (N : nat) (v : list Qs) : bool := qeq (Davidson_Spec.inner N v v) r1.
Definition libQ (pre : list Qs -> Qs -> list Qs -> list Qs) (N : nat) (A : list Qs -> list Qs) : @Davidson_Model.library Qs :=
  @Davidson_Model.mkLib Qs A (fun _ => []) (fun n s k => (map (fun i => s i i) (seq 0 k), map (fun i => map (fun b => delta i b) (seq 0 n)) (seq 0 k)))
    (fun _ => r1) (bigQ N) (bigQ N) (fun _ _ _ => true) (fun x => x) pre.
Lemma libQ_ok pre : library_ok (libQ pre).
Proof.
  intros N A L. split; [reflexivity|]. split; [intros t; cbn; lia|]. split; [intros n s k; cbn; now rewrite !map_length, seq_length|]. split; [reflexivity|]. split.
  - intros v Hv. cbn in Hv. unfold bigQ, qeq in Hv. apply Qc_eq_bool_correct in Hv. split; [reflexivity|]. rewrite Hv. cbn. now rewrite !Qcmult_1_l.
  - intros v _ Hv. split; [|reflexivity]. cbn. unfold bigQ, qeq. rewrite Hv. reflexivity.
Qed.
Definition diag4 (d : list Z) : arr Qs := mkArr [4; 4] (flat_map (fun i => map (fun j => if i =? j then qi (nth i d 0%Z) else r0) (seq 0 4)) (seq 0 4)).
Definition pm : arr Qs := diag4 [1; 1; -1; -1]%Z.
Definition vals (v : list Qs) : list Q := map this v.

(** The term on leaf 2 alone is the second of the list. *)
Example C87_local_ex :
  local_h [[(2, pm); (5, pm)]; [(2, diag4 [1; 2; 3; 4]%Z)]; [(2, pm)]] None 2 = Ok (diag4 [1; 2; 3; 4]%Z) /\
  local_h [[(2, pm); (5, pm)]; [(2, pm)]] (Some [[(5, fun x : Qs => mkArr [4; 4] (repeat (radd x r1) 16))]]) 5 = Ok (mkArr [4; 4] (repeat (radd r0 r1) 16)) /\
  local_h [[(2, pm); (5, pm)]; [(2, pm)]] None 5 = Raise RuntimeError.
Proof. repeat split. Qed.
(** The flip of two states times a matrix. *)
Example C87_action_ex : local_matvec (mkArr [2; 2] ([0; 1; 1; 0]%Z : list Z_star)) [1; 2; 3; 4]%Z = Ok [3; 4; 1; 2]%Z /\
  local_matvec (mkArr [2; 2] ([0; 1; 1; 0]%Z : list Z_star)) [1; 2; 3]%Z = Raise ValueError.
Proof. split; reflexivity. Qed.
(** Two vectors for the Hamiltonian diag(1, 1, -1, -1). *)
Example C87_search_ex :
  match found half_of (libQ (fun r _ _ => r)) 3 10 4 2 pm with
  | Ok ws => map vals ws = map (fun s => map (fun k => if k / 4 =? k mod 4 then Qmake (nth (k / 4) s 0%Z) 2 else 0%Q) (seq 0 16)) [[1; 1; 1; 1]; [1; 1; -1; -1]]%Z /\ match ft_rows 4 2 ws with Ok rows => length rows = 2 | _ => False end
  | Raise _ => False
  end.
Proof. vm_compute. split; reflexivity. Qed.
(** Four diagonal vectors are found, the fifth is the first unit vector. *)
Definition pre4 (r : list Qs) (_ : Qs) (u : list Qs) : list Qs :=
  if Qc_eq_bool (nth 5 u r0 + nth 10 u r0) 0%Qc && Qc_eq_bool (nth 5 u r0) (Q2Qc (1 # 2)) then map (fun k => if (k =? 5) || (k =? 15) then ropp (nth k r r0) else nth k r r0) (seq 0 16) else r.
Lemma pre4_diagonal r e u : on_diagonal 4 r -> on_diagonal 4 (pre4 r e u).
Proof.
  intros H. unfold pre4. destruct (_ && _); [|exact H]. intros k Hk Hne. set (f := fun k => if (k =? 5) || (k =? 15) then ropp (nth k r r0) else nth k r r0).
  rewrite (nth_indep _ r0 (f 0)) by (rewrite map_length, seq_length; auto). rewrite (map_nth f), seq_nth by auto. unfold f. cbn [Nat.add]. rewrite (H k Hk Hne). destruct (_ || _); [|reflexivity]. vm_compute. apply Qc_is_canon. reflexivity.
Qed.
Example C87_padding_refuted_ex :
  match found half_of (libQ pre4) 9 10 4 5 pm with
  | Ok ws => length ws = 4 /\ match ft_rows 4 5 ws with Ok rows => length rows = 5 /\ vals (nth 4 rows []) = map (fun k => if k =? 0 then 1%Q else 0%Q) (seq 0 16) | _ => False end
  | Raise _ => False
  end.
Proof. vm_compute. repeat split. Qed.
Lemma Qs_field (x : Qs) : x = r0 \/ exists y, rmul x y = r1.
Proof. destruct (Qc_eq_dec x 0%Qc) as [E|E]; [left; exact E|right]. exists (/ x)%Qc. apply Qcmult_inv_r. exact E. Qed.

(** Two pairs of four states; the link above the first has length two. *)
Local Open Scope string_scope.
Definition net4 : heap Qs :=
  [mkObj (Some "ROOT") false None None None true [(0, (1, 0)); (1, (4, 0))] [];
   mkObj (Some "ELECs") false None None (Some 0) true [(0, (0, 0)); (1, (2, 0)); (2, (3, 0))] [];
   mkObj (Some "ELEC") true None None None false [(0, (1, 1))] []; mkObj (Some "ELEC'") true None None None false [(0, (1, 2))] [];
   mkObj (Some "I0s") false None None (Some 0) true [(0, (0, 1)); (1, (5, 0)); (2, (6, 0))] [];
   mkObj (Some "I0'") true None None None false [(0, (4, 1))] []; mkObj (Some "I0") true None None None false [(0, (4, 2))] []].
Local Close Scope string_scope.
Definition tree4 : tree := Nd 0 [(0, Nd 1 [(1, Lf 2, 0); (2, Lf 3, 0)], 0); (1, Nd 4 [(1, Lf 5, 0); (2, Lf 6, 0)], 0)].
Definition bonds4 : list (edge * nat) := [((0, 0, 1, 0), 2); ((1, 1, 2, 0), 4); ((1, 2, 3, 0), 4); ((0, 1, 4, 0), 1); ((4, 1, 5, 0), 4); ((4, 2, 6, 0), 4)].
Definition run_pre pre (h : heap Qs) (bonds : list (edge * nat)) : res (heap Qs) :=
  ft_autocomplete (fun _ => r1) (fun x => x) (fun x => x) (fun a => nth 0 (shape a) 0) half_of (fun u v => forallb (fun p => qeq (fst p) (snd p)) (combine u v)) (libQ pre) 9 10
    [[(2, pm)]; [(6, pm)]] None bonds true 5 h 0.
Definition run4 := run_pre (fun r _ _ => r).
Example C87_state_any_scalars_ex :
  match run4 net4 bonds4 with
  | Ok h => map (fun n => shape (array_at h n)) [0; 1; 4] = [[2; 1]; [2; 4; 4]; [1; 4; 4]] /\
      vals (map (dense (array_at h) tree4) [[1; 1; 2; 2]; [1; 2; 2; 2]; [3; 3; 0; 0]; [0; 0; 1; 0]]) = [1 # 4; 0; 1 # 4; 0]%Q
  | Raise _ => False
  end.
Proof. vm_compute. split; reflexivity. Qed.
Ltac nodup := cbn; repeat (constructor; [cbn; intuition discriminate|]); constructor.
Ltac hang_all := apply hangs_root; [reflexivity|reflexivity|nodup|];
  repeat (constructor; [eapply (hangs_node _ _ _ _ _ [] [_; _]); [reflexivity|reflexivity|nodup|repeat (constructor; [apply hangs_leaf; reflexivity|]); constructor]|]); constructor.
(** The tensor 4 linked by its axis 1 to the parent: the array of the pair still has the axis of the parent first.  If the link has
    another length than the leaves, this is found; else the network is completed, with the second pair not entangled: amplitude 1/4
    whatever the value of the first leaf of the pair. *)
Definition net4' : heap Qs := modify (modify (modify net4 0 (fun o => mkObj (oname o) (oleaf o) None None None true [(0, (1, 0)); (1, (4, 1))] []))
  4 (fun o => mkObj (oname o) (oleaf o) None None (Some 1) true [(1, (0, 1)); (0, (5, 0)); (2, (6, 0))] [])) 5 (fun o => mkObj (oname o) true None None None false [(0, (4, 0))] []).
Definition tree4' : tree := Nd 0 [(0, Nd 1 [(1, Lf 2, 0); (2, Lf 3, 0)], 0); (1, Nd 4 [(0, Lf 5, 0); (2, Lf 6, 0)], 1)].
Definition bonds4' (p : nat) : list (edge * nat) := [((0, 0, 1, 0), 2); ((1, 1, 2, 0), 4); ((1, 2, 3, 0), 4); ((0, 1, 4, 1), p); ((4, 0, 5, 0), 4); ((4, 2, 6, 0), 4)].
Theorem C87_axis_refuted :
  hangs net4' None tree4' /\ forM (fun n => check_completness net4' n false) [0; 1; 2; 3; 4; 5; 6] = Ok tt /\
  run_pre pre4 net4' (bonds4' 1) = Raise RuntimeError /\
  match run_pre pre4 net4' (bonds4' 4) with
  | Ok h => oaxis (hget h 4) = Some 1 /\ shape (array_at h 4) = [4; 4; 4] /\ shape (array_at h 0) = [2; 4] /\
      vals (map (dense (array_at h) tree4') [[1; 1; 0; 0]; [1; 1; 1; 0]; [1; 1; 2; 0]; [1; 1; 1; 1]]) = [1 # 4; 1 # 4; 1 # 4; 0]%Q
  | Raise _ => False
  end.
Proof.
  split; [hang_all|].
  vm_compute. repeat split.
Qed.
Print Assumptions C87_axis_refuted.
Example C87_first_axis_ex : match ft_array half_of (fun _ _ => true) 4 1 [vec_i half_of 4] with Ok a => shape a = [1; 4; 4] | Raise _ => False end.
Proof. vm_compute. reflexivity. Qed.
Example C87_plain_ex :
  match ft_autocomplete (fun _ => r1) (fun x => x) (fun x => x) (fun a => nth 0 (shape a) 0) half_of (fun _ _ => false) (libQ (fun r _ _ => r)) 0 0 [] None bonds4 false 5 net4 0 with
  | Ok h => vals (map (dense (array_at h) tree4) [[1; 1; 2; 2]; [0; 0; 0; 0]]) = [0; 1]%Q
  | Raise _ => False
  end.
Proof. vm_compute. reflexivity. Qed.

(** One leaf below a tensor; two partners. *)
Definition lonely : heap Qs :=
  [mkObj (Some "ROOT"%string) false None None None true [(0, (1, 0)); (1, (2, 0))] []; mkObj (Some "X'"%string) true None None None false [(0, (0, 0))] [];
   mkObj (Some "Y'"%string) true None None None false [(0, (0, 1))] []].
Example C87_refused_ex : run4 lonely [((0, 0, 1, 0), 4); ((0, 1, 2, 0), 4)] = Raise RuntimeError /\
  run4 (modify net4 2 (fun o => mkObj (Some "E'"%string) (oleaf o) None None None false (oacc o) [])) bonds4 = Raise UnboundLocalError /\
  run4 (modify net4 2 (fun o => mkObj None (oleaf o) None None None false (oacc o) [])) bonds4 = Raise AttributeError.
Proof. vm_compute. repeat split. Qed.
Example C87_leftover_refuted_ex : pick bonds4 (modify net4 6 (fun o => mkObj (Some "Z'"%string) (oleaf o) None None None false (oacc o) [])) 4 (Some 3) None [(1, 5, 0); (2, 6, 0)] = Ok (3, 6).
Proof. vm_compute. reflexivity. Qed.

(** Complex numbers: a library, and the network above with links of length one above the pairs. *)
Definition re_norm (N : nat) (v : list C_star) : R := fst (Davidson_Spec.inner N v v).
Definition libC (N : nat) (A : list C_star -> list C_star) : @Davidson_Model.library C_star :=
  @Davidson_Model.mkLib C_star A (fun _ => []) (fun n s k => (repeat r0 k, repeat [] k)) (fun v => RtoC (/ sqrt (re_norm N v)))
    (fun v => if Rlt_dec 0 (re_norm N v) then true else false) (fun _ => false) (fun _ _ _ => true) (fun x => x) (fun r _ _ => r).
Lemma libC_ok : library_ok libC.
Proof.
  intros N A L. split; [reflexivity|]. split; [intros t; cbn; lia|]. split; [intros n s k; cbn [L libC Davidson_Model.eigh fst snd]; now rewrite !repeat_length|]. split; [reflexivity|]. split.
  - intros v Hv. cbn [L libC Davidson_Model.gs_big Davidson_Model.inv_norm] in *. destruct (Rlt_dec 0 (re_norm N v)) as [P|]; [|discriminate]. rewrite RtoC_conj. split; [reflexivity|].
    assert (E : Davidson_Spec.inner N v v = RtoC (re_norm N v)). { unfold re_norm, Davidson_Spec.inner, sumn. destruct (sum_norm2 (seq 0 N) (fun x => nth x v r0)) as (r & E & _). rewrite E. reflexivity. }
    rewrite E, <- !RtoC_mul. pose proof (sqrt_lt_R0 _ P) as Q. replace (/ sqrt (re_norm N v) * / sqrt (re_norm N v) * re_norm N v)%R with 1%R; [reflexivity|].
    rewrite <- (sqrt_sqrt (re_norm N v)) at 3 by lra. field. lra.
  - intros v _ Hv. cbn [L libC Davidson_Model.gs_big Davidson_Model.inv_norm]. assert (E : re_norm N v = 1%R) by (unfold re_norm; rewrite Hv; reflexivity). rewrite E, sqrt_1, Rinv_1. split; [|reflexivity].
    destruct (Rlt_dec 0 1); [reflexivity|lra].
Qed.
Definition netC : heap C_star := map (fun o => mkObj (oname o) (oleaf o) None None (oaxis o) (onorm o) (oacc o) []) net4.
Definition lenC (n : id) : nat := if (n =? 2) || (n =? 3) then 2 else if (n =? 5) || (n =? 6) then 3 else 1.
Definition bondsC : list (edge * nat) := map (fun e => (e, lenC (snd (fst e)))) (edges tree4).
Lemma pairC_ok n c : lenC n = 1 -> 0 < lenC c -> local_h (K := C_star) [[(2, eye 2 2)]; [(6, eye 3 3)]] None c = Ok (eye (lenC c) (lenC c)) -> pair_ok (K := C_star) isqrtC libC 2 10 [[(2, eye 2 2)]; [(6, eye 3 3)]] None lenC n c.
Proof.
  intros E1 Pc H. exists (eye (lenC c) (lenC c)). assert (Sh : shape (@eye C_star (lenC c) (lenC c)) = [lenC c; lenC c]) by reflexivity.
  assert (Hh : forall i j, i < lenC c -> j < lenC c -> get (@eye C_star (lenC c) (lenC c)) [i; j] = rconj (get (@eye C_star (lenC c) (lenC c)) [j; i])).
  { intros i j Hi Hj. rewrite !get_eye by auto. unfold delta. rewrite (Nat.eqb_sym j i). destruct (i =? j); [symmetry; apply rconj_1|symmetry; apply rconj_0]. }
  split; [exact H|split; [exact Sh|split; [exact Hh|split; [rewrite E1; nia|]]]].
  - destruct (C87_search C_star isqrtC ltac:(intros; apply RtoC_conj) isqrtC_ok libC libC_ok 1 10 (lenC c) (lenC n) (eye (lenC c) (lenC c)) Pc ltac:(lia) Sh Hh) as (ws & E & _ & _ & F).
    intros ws' rows Ew Er. assert (Q : vec_i isqrtC (lenC c) :: ws = ws') by (assert (X := eq_trans (eq_sym E) Ew); now apply (f_equal (fun r => match r with Ok a => a | Raise _ => [] end)) in X). subst ws'.
    destruct F as (F1 & F2); [lia|]. assert (Q : firstn (lenC n) (vec_i isqrtC (lenC c) :: ws) = rows) by (assert (X := eq_trans (eq_sym F1) Er); now apply (f_equal (fun r => match r with Ok a => a | Raise _ => [] end)) in X). rewrite <- Q. exact F2.
Qed.
Example C87_state_ex : empty_net netC lenC (pair_ok isqrtC libC 2 10 [[(2, eye 2 2)]; [(6, eye 3 3)]] None lenC) bondsC tree4 /\ height tree4 <= 5 /\ lone tree4 = [] /\
  map (fun p => lenC (fst p)) (pairs tree4) = [2; 3] /\ weave [1; 2] [0; 1] = [1; 0; 2; 1].
Proof.
  split; [|repeat split; cbn; lia]. split; [|split; [|split; [|split]]].
  - hang_all.
  - exists 0, [(0, Nd 1 [(1, Lf 2, 0); (2, Lf 3, 0)], 0); (1, Nd 4 [(1, Lf 5, 0); (2, Lf 6, 0)], 0)]. split; [reflexivity|]. split; [reflexivity|]. split; [reflexivity|]. split; [reflexivity|].
    constructor; [|constructor; [|constructor]].
    + apply pf_pair with (c := 2).
      * split; [reflexivity|]. split; [cbn; lia|]. split; [cbn; lia|]. split; [reflexivity|]. exists "ELEC"%string, "ELEC'"%string. split; [reflexivity|]. split; [reflexivity|]. left. split; [reflexivity|]. apply primed_false. reflexivity.
      * apply pairC_ok; [reflexivity|cbn; lia|reflexivity].
    + apply pf_pair with (c := 6).
      * split; [reflexivity|]. split; [cbn; lia|]. split; [cbn; lia|]. split; [reflexivity|]. exists "I0'"%string, "I0"%string. split; [reflexivity|]. split; [reflexivity|]. right. split; [reflexivity|].
        split; [apply primed_spec; reflexivity|apply primed_false; reflexivity].
      * apply pairC_ok; [reflexivity|cbn; lia|reflexivity].
  - cbn. repeat (constructor; [cbn; intuition discriminate|]). constructor.
  - intros n Hn. cbn in Hn. repeat (destruct Hn as [<-|Hn]; [split; [cbn; lia|split; reflexivity]|]). destruct Hn.
  - intros e He. cbn in He. repeat (destruct He as [<-|He]; [reflexivity|]). destruct He.
Qed.
Example C87_thermal_ex : exists h', ft_autocomplete vnorm Csqrt Cinv (fun a => nth 0 (shape a) 0) isqrtC (fun _ _ => true) libC 2 10 [[(2, eye 2 2)]; [(6, eye 3 3)]] None bondsC true 5 netC 0 = Ok h' /\
  sumL (indices [2; 3]) (fun y => rmul (dense (array_at h') tree4 (weave [1; 2] y)) (rconj (dense (array_at h') tree4 (weave [1; 2] y)))) = RtoC (/ 6) /\
  sumL (indices [2; 3]) (fun y => rmul (dense (array_at h') tree4 (weave [1; 2] y)) (rconj (dense (array_at h') tree4 (weave [0; 2] y)))) = r0.
Proof.
  destruct C87_state_ex as (He & Hf & Lo & _). destruct (C87_thermal (fun a => nth 0 (shape a) 0) (fun _ _ => true)) with (lib := libC) (max_cycle := 1) (max_space := 10) (h_list := [[(2, @eye C_star 2 2)]; [(6, eye 3 3)]]) (f_list := @None (list (list (id * (C_star -> arr C_star))))) (bonds := bondsC) (h := netC) (B := lenC) (t := tree4) (fuel := 5)
    as (h' & E & _ & _ & T); auto; [exact libC_ok|]. exists h'. split; [exact E|].
  assert (R1 : in_range [1; 2] [2; 3]) by (repeat constructor). assert (R2 : in_range [0; 2] [2; 3]) by (repeat constructor).
  split; [etransitivity; [exact (T [1; 2] [1; 2] R1 R1)|]|exact (T [1; 2] [0; 2] R1 R2)].
  cbn [list_eq_dec Nat.eq_dec]. change (INR (prod (map (fun p => lenC (fst p)) (pairs tree4)))) with (INR 6). replace (INR 6) with 6%R by (cbn; lra). reflexivity.
Qed.
