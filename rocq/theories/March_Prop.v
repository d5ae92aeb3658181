(** Property C82: the generators [propagation] and [autocorrelation], the function [spectrum], and
    what MCTDH puts into them. *)
From Coq Require Import List Arith ZArith Bool Lia Ring Reals Lra.
From Verif Require Import Py Alg ListX NdArray_Model NdArray_Proof Cplx PoDvr_Spec PoDvr_Model Mctdh_Model Mctdh_Spec Mctdh_Prop
  March_Spec March_Model MarchLin_Proof March_Proof MarchMore_Proof MarchTree_Proof.
Import ListNotations.
Local Open Scope nat_scope.
Local Open Scope list_scope.
Add Ring Cr4 : (r_theory C_star).

(** The Hamiltonians are linear (for MCTDH: with the mean fields kept), with the same errors for
    all vectors of one length. *)
Definition mctdh_h (inv : carr -> res carr) (err : C_star) (shapes : list (list nat)) (h_terms : list cterm) (self_vec vec : cvec) : res cvec :=
  bind (h_matvec inv err shapes self_vec vec h_terms) (fun a => Ok (data a)).
Theorem C82_linear : (forall inv err shapes h_terms self_vec, linear_op (mctdh_h inv err shapes h_terms self_vec)) /\
  (forall hs d, Forall (fun h : @op1 C_star => linear_op (snd h)) hs -> linear_op (po_matvec hs d)) /\ (forall m : arr C_star, linear_op (dot_vec m)).
Proof. split; [intros; apply mctdh_linear|]. split; [apply po_linear|apply dot_linear]. Qed.
Print Assumptions C82_linear.

(** So the right side of the equation, put together from the real and the imaginary part, is
    -i/hbar times the product with the Hamiltonian. *)
Theorem C82_derivative h f (y : cvec) : linear_op h ->
  match h y with
  | Ok w => exists d, deriv h f y = Ok d /\ length d = length w /\ forall k, nth k d r0 = rmul (ropp (rmul C_i (RtoC f))) (nth k w r0)
  | Raise e => deriv h f y = Raise e
  end.
Proof. apply deriv_ok. Qed.
Print Assumptions C82_derivative.

(** The first two coefficients of a step, whatever the table. *)
Theorem C82_step_polynomial f rows weights h : length weights <= S (length rows) -> total weights = 1%R ->
  nth 0 (step_poly f rows weights h) r0 = r1 /\ nth 1 (step_poly f rows weights h) r0 = ropp (rmul C_i (RtoC (f * h))).
Proof. intros L T. destruct (consistent f rows weights h L) as (A & B). split; [exact A|]. rewrite B, T, Rmult_1_r. replace (f * h)%R with (h * f)%R by ring. rewrite RtoC_mul. ring. Qed.
Print Assumptions C82_step_polynomial.

(** What is yielded: the steps applied to the first vector, and the time. *)
Theorem C82_propagation {env : Type} n H f rows weights size stop (h : env -> cvec -> res cvec) energy ce e0 start init e k t y s' e' :
  acts n n H (h e) -> length init = n -> energy e init = Ok e0 ->
  after rows weights size stop h f energy e0 ce (fun _ e => Ok e) None k (first_event h f energy ce None start init e) = Yields (t, y) (s', e') ->
  length y = n /\ exists hs, length hs <= k /\ t = (start + total hs)%R /\ forall i, i < n -> nth i y r0 = steps f rows weights n H hs (fun j => nth j init r0) i.
Proof.
  intros A L Ee E. destruct (after_ok n H f rows weights size stop h energy ce e0 start init e A L k t y s' e' Ee E) as (_ & (Ly & _) & -> & _ & X). split; [exact Ly|exact X].
Qed.
Print Assumptions C82_propagation.

(** For a symmetric matrix the value of the autocorrelation is the product of the first vector with
    the vector after the steps taken twice. *)
Theorem C82_autocorrelation {env : Type} n H f rows weights size stop (h : env -> cvec -> res cvec) energy ce e0 start init e k t y s' e' :
  acts n n H (h e) -> (forall j k, j < n -> k < n -> H j k = H k j) -> length init = n -> energy e init = Ok e0 ->
  after rows weights size stop h f energy e0 ce (fun _ e => Ok e) None k (first_event h f energy ce None start init e) = Yields (t, y) (s', e') ->
  exists hs, t = (start + total hs)%R /\ total (hs ++ hs) = (2 * (t - start))%R /\
    auto_value (fun _ : env => vdot) e' y = Ok (sumn n (fun i => rmul (nth i init r0) (steps f rows weights n H (hs ++ hs) (fun j => nth j init r0) i))).
Proof.
  intros A Sy L Ee E. destruct (C82_propagation n H f rows weights size stop h energy ce e0 start init e k t y s' e' A L Ee E) as (Ly & hs & _ & T & V). exists hs. split; [exact T|]. split.
  - assert (X : forall a b, total (a ++ b) = (total a + total b)%R) by (intros a b; induction a as [|x a IH]; [cbn [app]; change (total []) with 0%R; ring|]; change (total ((x :: a) ++ b)) with (x + total (a ++ b))%R; change (total (x :: a)) with (x + total a)%R; rewrite IH; ring). rewrite X, T. ring.
  - rewrite value_ok, Ly. f_equal. rewrite (sumn_ext C_star n _ (fun i => rmul (steps f rows weights n H hs (fun j => nth j init r0) i) (steps f rows weights n H hs (fun j => nth j init r0) i))) by (intros i Hi; now rewrite V).
    rewrite steps_sym by auto. apply sumn_ext. intros i Hi. f_equal. now rewrite steps_app.
Qed.
Print Assumptions C82_autocorrelation.

(** The Hamiltonian of [PO_DVR] acts as a matrix, which is symmetric when those of the axes are. *)
Theorem C82_dvr_matrix (hs : list (@op1 C_star)) Hs v : Forall (fun h => fst h <> 0) hs -> equal_tail (map fst hs) -> (forall i h, nth_error hs i = Some h -> acts (fst h) (fst h) (Hs i) (snd h)) ->
  (forall d, v = Some d -> length d = prod (map fst hs)) ->
  exists H, acts (prod (map fst hs)) (prod (map fst hs)) H (po_matvec hs v) /\
    ((forall i j k, i < length hs -> j < nth i (map fst hs) 0 -> k < nth i (map fst hs) 0 -> Hs i j k = Hs i k j) -> forall a b, a < prod (map fst hs) -> b < prod (map fst hs) -> H a b = H b a).
Proof.
  intros F T A D. exists (po_entry (map fst hs) Hs v). split; [now apply po_acts|]. intros Sy. apply po_entry_sym. rewrite map_length. exact Sy.
Qed.
Print Assumptions C82_dvr_matrix.

(** With Python 3.7 or later none of the generators comes to an end without an error, so that
    [spectrum] never returns. *)
Theorem C82_end_of_generators_refuted {env : Type} rows weights size stop (h : env -> cvec -> res cvec) factor energy e0 ce updater normalizer dot fuel ev :
  (forall l, drain_from rows weights size stop h factor energy e0 ce updater normalizer true fuel ev <> Some (Ok l)) /\
  (forall t_2 l, auto_from rows weights size stop h factor energy e0 ce updater normalizer true dot fuel t_2 ev <> Some (Ok l)) /\
  (forall ifft w len r, spectrum rows weights size stop h factor energy e0 ce updater normalizer true dot fuel ifft w len ev <> Some (Ok r)).
Proof. split; [intros l; apply drain_never|]. split; [intros t_2 l; apply auto_never|]. intros. apply spectrum_never. Qed.
Print Assumptions C82_end_of_generators_refuted.
(** Before that version: all that is yielded, up to the time. *)
Theorem C82_values {env : Type} rows weights size stop (h : env -> cvec -> res cvec) factor energy e0 ce updater normalizer dot fuel ev :
  (forall l, drain_from rows weights size stop h factor energy e0 ce updater normalizer false fuel ev = Some (Ok l) ->
     (forall k d, k < length l -> exists st, after rows weights size stop h factor energy e0 ce updater normalizer k ev = Yields (nth k l d) st) /\
     after rows weights size stop h factor energy e0 ce updater normalizer (length l) ev = Stops) /\
  (forall t_2 l, auto_from rows weights size stop h factor energy e0 ce updater normalizer false dot fuel t_2 ev = Some (Ok l) ->
     (forall k d, k < length l -> exists t y s e v, after rows weights size stop h factor energy e0 ce updater normalizer k ev = Yields (t, y) (s, e) /\ (t < t_2)%R /\ auto_value dot e y = Ok v /\ nth k l d = ((t * 2)%R, v)) /\
     (after rows weights size stop h factor energy e0 ce updater normalizer (length l) ev = Stops \/
      exists t y st, after rows weights size stop h factor energy e0 ce updater normalizer (length l) ev = Yields (t, y) st /\ (t_2 <= t)%R)).
Proof. split; [intros l; apply drain_all|intros t_2 l; apply auto_all]. Qed.
Print Assumptions C82_values.

(** A step that has come to [stop] is the last one: the next call ends the generator. *)
Theorem C82_finish {env : Type} rows weights size stop (h : env -> cvec -> res cvec) factor energy e0 ce updater normalizer ev k t y s e :
  after rows weights size stop h factor energy e0 ce updater normalizer (S k) ev = Yields (t, y) (s, e) -> (stop <= t)%R ->
  after rows weights size stop h factor energy e0 ce updater normalizer (S (S k)) ev = Stops.
Proof.
  intros E L. change (after rows weights size stop h factor energy e0 ce updater normalizer (S (S k)) ev) with (match after rows weights size stop h factor energy e0 ce updater normalizer (S k) ev with Yields _ (s, e) => resume rows weights size stop h factor energy e0 ce updater normalizer s e | x => x end).
  rewrite E. assert (O : s_open s = false); [|unfold resume, rk_step; now rewrite O].
  cbn [after] in E. destruct (after _ _ _ _ _ _ _ _ _ _ _ k ev) as [a (s1, e1)| |]; try discriminate. unfold resume in E.
  destruct (rk_step rows weights size stop (deriv (h e1) factor) s1) as [s2|[]] eqn:R; try discriminate. destruct (updater s2 e1) as [e2|]; try discriminate.
  assert (V : s_time s = s_time s2 /\ s_open s = s_open s2 /\ t = s_time s).
  { unfold visit in E. destruct normalizer as [f|].
    - destruct (f e2 (s_y s2)) as [y'|]; cbn [bind] in E; try discriminate. destruct (energy e2 _) as [en|]; try discriminate. destruct (match ce with None => _ | Some _ => _ end); try discriminate. injection E as <- <- <- <-. auto.
    - destruct (energy e2 _) as [en|]; try discriminate. destruct (match ce with None => _ | Some _ => _ end); try discriminate. injection E as <- <- <- <-. auto. }
  destruct V as (V1 & V2 & ->). rewrite V2. unfold rk_step in R. destruct (s_open s1); try discriminate. destruct (size (s_time s1) (s_y s1) (s_slope s1)) as [w|]; [|now injection R as <-].
  destruct (stages _ w rows _ _) as [ks|]; cbn [bind] in R; try discriminate. destruct (combo w weights ks _) as [y1|]; cbn [bind] in R; try discriminate. destruct (deriv _ _ y1) as [f|]; cbn [bind] in R; try discriminate.
  injection R as <-. cbn [s_open s_time] in *. destruct (Rlt_dec (s_time s1 + w) stop); [lra|reflexivity].
Qed.
Print Assumptions C82_finish.

(** The spectrum of values at equal distances is the Fourier sum at the frequencies returned. *)
Theorem C82_spectrum ifft window l : inverse_dft ifft ->
  match spectrum_of ifft window l with
  | Ok (freq, sigma) => 2 <= length l /\ exists tau, tau = ((fst (last l (0%R, r0)) - fst (hd (0%R, r0) l)) / INR (length l - 1))%R /\
      (forall j, j < length l -> (Rabs (fst (nth j l (0%R, r0)) - INR j * tau) < 1 / 10 ^ 8)%R) /\ length freq = length l /\ length sigma = length l /\
      (tau <> 0%R -> forall k, k < length l -> nth k freq 0%R = (2 * PI * INR k / (INR (length l) * tau))%R /\
         nth k sigma r0 = rmul (RtoC (/ INR (length l))) (sumn (length l) (fun j => rmul (rmul (snd (nth j l (0%R, r0))) (match window with None => r1 | Some w => w (fst (nth j l (0%R, r0))) end)) (Cexp (0, nth k freq 0 * (INR j * tau))%R))))
  | Raise ValueError => length l = 0
  | Raise ZeroDivisionError => length l = 1
  | Raise NotImplementedError => 2 <= length l /\ exists j, j < length l /\ (1 / 10 ^ 8 <= Rabs (fst (nth j l (0, r0)) - INR j * ((fst (last l (0, r0)) - fst (hd (0, r0) l)) / INR (length l - 1))))%R
  | Raise _ => False
  end.
Proof.
  intros D. destruct (spectrum_of ifft window l) as [(freq, sigma)|x] eqn:E; [now apply (spectrum_ok ifft window)|]. rewrite spectrum_eq in E.
  destruct l as [|p0 [|p1 l0]]; try (injection E as <-; reflexivity). set (l := p0 :: p1 :: l0) in *. cbv zeta in E. set (tau := ((fst (last l (0%R, r0)) - fst (hd (0%R, r0) l)) / INR (length l - 1))%R) in *.
  set (g := fun p : nat * (R * C_star) => if Rlt_dec (Rabs (fst (snd p) - INR (fst p) * tau)) (1 / 10 ^ 8) then true else false) in E.
  assert (E' : (if forallb g (combine (seq 0 (length l)) l) then Ok (map (fun k => INR k * (2 * PI / INR (length l) / tau))%R (seq 0 (length l)), ifft (windowed window l)) else Raise NotImplementedError) = Raise x) by exact E. clear E.
  destruct (forallb g _) eqn:G; [discriminate|]. assert (X : x = NotImplementedError) by congruence. rewrite X. split; [unfold l; cbn [length]; lia|].
  assert (F : exists p, In p (combine (seq 0 (length l)) l) /\ g p = false).
  { clear - G. induction (combine (seq 0 (length l)) l) as [|p q IH]; [discriminate|]. cbn [forallb] in G. destruct (g p) eqn:Gp; [destruct (IH G) as (p' & I & N); exists p'; split; auto; now right|exists p; split; auto; now left]. }
  destruct F as (p & I & N). destruct (In_nth _ _ (0, (0%R, r0 : C_star)) I) as (j & Hj & Ej). rewrite combine_length, seq_length, Nat.min_id in Hj. rewrite combine_nth, seq_nth in Ej by (auto; apply seq_length). exists j. split; [exact Hj|].
  rewrite <- Ej in N. unfold g in N. cbn [fst snd Nat.add] in N. destruct (Rlt_dec _ _) as [|N'] in N; [discriminate|]. apply Rnot_lt_le. exact N'.
Qed.
Print Assumptions C82_spectrum.

(** The whole of [spectrum]: the values before half of the length. *)
Theorem C82_spectrum_values {env : Type} rows weights size stop (h : env -> cvec -> res cvec) factor energy e0 ce updater normalizer dot fuel ev ifft w len r :
  spectrum rows weights size stop h factor energy e0 ce updater normalizer false dot fuel ifft w len ev = Some (Ok r) ->
  exists l, spectrum_of ifft w l = Ok r /\
    (forall k d, k < length l -> exists t y s e v, after rows weights size stop h factor energy e0 ce updater normalizer k ev = Yields (t, y) (s, e) /\ (2 * t < len)%R /\ auto_value dot e y = Ok v /\ nth k l d = ((t * 2)%R, v)) /\
    (after rows weights size stop h factor energy e0 ce updater normalizer (length l) ev = Stops \/
     exists t y st, after rows weights size stop h factor energy e0 ce updater normalizer (length l) ev = Yields (t, y) st /\ (len <= 2 * t)%R).
Proof.
  unfold spectrum. destruct (auto_from _ _ _ _ _ _ _ _ _ _ _ _ _ _ (len / 2) ev) as [[l|x]|] eqn:E; try discriminate. intros X. exists l. split; [congruence|].
  destruct (C82_values rows weights size stop h factor energy e0 ce updater normalizer dot fuel ev) as (_ & V). destruct (V _ _ E) as (A & B). split.
  - intros k d Hk. destruct (A k d Hk) as (t & y & s & e & v & E1 & T & E2 & N). exists t, y, s, e, v. repeat split; auto. lra.
  - destruct B as [B|(t & y & st & B & T)]; [now left|right]. exists t, y, st. split; auto. lra.
Qed.
Print Assumptions C82_spectrum_values.

(** With [const_energy] no vector is yielded whose energy is further off. *)
Theorem C82_const_energy {env : Type} rows weights size stop (h : env -> cvec -> res cvec) factor energy e0 c updater normalizer start init e k t y s' e' :
  energy e init = Ok e0 -> c <> 0%R ->
  after rows weights size stop h factor energy e0 (Some c) updater normalizer k (first_event h factor energy (Some c) normalizer start init e) = Yields (t, y) (s', e') ->
  exists en, energy e' y = Ok en /\ (sqrt (Cnorm2 (rsub en e0)) <= 1 / 10 ^ 8 \/ sqrt (Cnorm2 (rsub en e0)) <= c)%R.
Proof.
  intros Ee Hc. assert (G : forall s e1, visit energy e0 (Some c) normalizer s e1 = Yields (t, y) (s', e') -> exists en, energy e' y = Ok en /\ (sqrt (Cnorm2 (rsub en e0)) <= 1 / 10 ^ 8 \/ sqrt (Cnorm2 (rsub en e0)) <= c)%R).
  { intros s e1. unfold visit. destruct (match normalizer with None => _ | _ => _ end) as [s1|]; [|discriminate]. destruct (energy e1 (s_y s1)) as [en|] eqn:En; [|discriminate]. cbv zeta.
    destruct (Rlt_dec (1 / 10 ^ 8) _) as [A|A], (Req_EM_T c 0) as [B|B], (Rlt_dec c _) as [D|D]; cbn [andb]; try discriminate; try contradiction; intros X; injection X as <- <- <- <-; exists en; (split; [exact En|]); [right|left|left]; now apply Rnot_lt_le. }
  destruct k as [|k]; cbn [after].
  - unfold first_event. rewrite Ee. destruct (rk_init _ _ _); [|discriminate]. apply G.
  - destruct (after _ _ _ _ _ _ _ _ _ _ _ k _) as [a (s, e1)| |]; try discriminate. unfold resume. destruct (rk_step _ _ _ _ _ _) as [s1|[]]; try discriminate. destruct (updater s1 e1); [apply G|discriminate].
Qed.
Print Assumptions C82_const_energy.

(** MCTDH takes the product of the tensors alone.  It is that of the states when the matrices are
    orthonormal without conjugation, as real ones are. *)
Theorem C82_mctdh_autocorrelation sl (Cs : list carr) A vec {env} (e : env) : pieces sl Cs A vec ->
  auto_value (fun _ => mctdh_dot (all_shapes sl)) e vec = Ok (sumL (indices (map snd sl)) (fun m => rmul (get A m) (get A m))) /\
  (all_real Cs -> all_orthonormal sl Cs -> auto_value (fun _ => mctdh_dot (all_shapes sl)) e vec =
     Ok (sumL (indices (map fst sl)) (fun n => rmul (psi (map entries Cs) (map snd sl) (get A) n) (psi (map entries Cs) (map snd sl) (get A) n)))).
Proof.
  intros Pc. pose proof (mdot_value sl Cs A vec e Pc) as V. split; [exact V|]. intros Re O. rewrite V. f_equal. symmetry. destruct Pc as (F & _).
  assert (LC : length (map entries Cs) = length (map fst sl)) by (rewrite !map_length; clear - F; induction F; cbn [length]; congruence). apply square_psi; auto; [now rewrite !map_length|].
  intros i p q Hi Hp Hq. pose proof (orthonormal_at sl Cs O i Hi p q Hp Hq) as X. rewrite <- X. apply sumn_ext. intros x Hx. f_equal. rewrite map_length in Hi.
  set (no := mkArr [] [] : carr).
  assert (N : nth i (map entries Cs) no_mat = entries (nth i Cs no)).
  { rewrite map_length in LC. clear - F Hi. revert i Hi. induction F as [|s C sl Cs H F IH]; intros [|i] Hi; cbn [length] in Hi; try lia; [reflexivity|]. apply (IH i). lia. }
  assert (Si : shape (nth i Cs no) = [nth i (map fst sl) 0; nth i (map snd sl) 0] /\ In (nth i Cs no) Cs).
  { clear - F Hi. revert i Hi. induction F as [|s C sl Cs (_ & H) F IH]; intros [|i] Hi; cbn [length] in Hi; try lia; [split; [exact H|now left]|]. destruct (IH i ltac:(lia)) as (A & B). split; [exact A|now right]. }
  destruct Si as (Si & Ii). unfold all_real in Re. rewrite Forall_forall in Re. specialize (Re _ Ii [x; p]). rewrite N. unfold entries. rewrite Si in Re. specialize (Re (in_range2 _ _ _ _ Hx Hp)). apply Ceq; cbn; [ring|rewrite Re; ring].
Qed.
Print Assumptions C82_mctdh_autocorrelation.
(** For complex matrices it is not: here 1 instead of -1. *)
Definition a_one : carr := mkArr [2] [r0; r1].
Theorem C82_mctdh_autocorrelation_refuted : pieces [(2, 2)] [c_wit] a_one (data c_wit ++ data a_one) /\ all_orthonormal [(2, 2)] [c_wit] /\
  auto_value (fun _ : unit => mctdh_dot (all_shapes [(2, 2)])) tt (data c_wit ++ data a_one) = Ok r1 /\
  sumL (indices [2]) (fun n => rmul (psi [entries c_wit] [2] (get a_one) n) (psi [entries c_wit] [2] (get a_one) n)) = ropp r1.
Proof.
  assert (P : pieces [(2, 2)] [c_wit] a_one (data c_wit ++ data a_one)) by (split; [constructor; [split; reflexivity|constructor]|split; [reflexivity|split; reflexivity]]).
  split; [exact P|]. split; [constructor; [destruct C71_mean_fields_refuted as (w & O & _); exact O|constructor]|]. split.
  - destruct (C82_mctdh_autocorrelation _ _ _ _ tt P) as (-> & _). f_equal. apply Ceq; cbn; ring.
  - unfold psi. apply Ceq; cbn; ring.
Qed.
Print Assumptions C82_mctdh_autocorrelation_refuted.

(** The normalizer: the matrices get the norm of orthonormal columns and the tensor norm one, all
    by positive factors; orthonormal columns are left alone. *)
Theorem C82_normalizer sl (Cs : list carr) A vec : pieces sl Cs A vec -> Forall (fun s => 0 < snd s) sl -> Forall (fun C : carr => (0 < size2 (data C))%R) Cs -> (0 < size2 (data A))%R ->
  exists Ds B w, mctdh_normalizer sl vec = Ok w /\ pieces sl Ds B w /\
    (forall i d, i < length sl -> exists c, (0 < c)%R /\ size2 (data (nth i Ds d)) = INR (snd (nth i sl (0%nat, 0%nat))) /\
       (forall k, nth k (data (nth i Ds d)) r0 = rmul (RtoC c) (nth k (data (nth i Cs d)) r0)) /\ (size2 (data (nth i Cs d)) = INR (snd (nth i sl (0%nat, 0%nat))) -> nth i Ds d = nth i Cs d)) /\
    (exists c, (0 < c)%R /\ size2 (data B) = 1%R /\ (forall k, nth k (data B) r0 = rmul (RtoC c) (nth k (data A) r0)) /\ (size2 (data A) = 1%R -> B = A)).
Proof.
  intros Pc Fm FC HA. destruct (normalizer_ok sl Cs A vec Pc Fm FC HA) as (E & P'). exists (scaled_all sl Cs), (scaled 1 A). eexists. split; [exact E|]. split; [exact P'|].
  assert (LC : length Cs = length sl) by (destruct Pc as (F & _); clear - F; induction F; cbn [length]; congruence). split.
  - intros i d Hi. rewrite nth_scaled by auto. rewrite Forall_forall in Fm, FC. assert (Hm : (0 < INR (snd (nth i sl (0%nat, 0%nat))))%R) by (apply lt_0_INR, Fm, nth_In; lia). assert (Hc : (0 < size2 (data (nth i Cs d)))%R) by (apply FC, nth_In; lia).
    exists (sqrt (INR (snd (nth i sl (0%nat, 0%nat))) / size2 (data (nth i Cs d)))). split; [apply sqrt_lt_R0, Rdiv_lt_0_compat; auto|]. split; [apply scaled_size; auto; lra|]. split; [intros k; apply nth_scale|]. intros X. now apply scaled_same.
  - exists (sqrt (1 / size2 (data A))). split; [apply sqrt_lt_R0, Rdiv_lt_0_compat; lra|]. split; [apply scaled_size; auto; lra|]. split; [intros k; apply nth_scale|]. intros X. apply scaled_same; auto; lra.
Qed.
Print Assumptions C82_normalizer.

(** After each step of MCTDH the solver keeps a derivative computed with the mean fields of the vector
    before the step, and before normalization. *)
Theorem C82_kept_derivative rows weights size stop inv err shapes h_terms factor energy e0 ce normalizer s e t y s' e' step :
  size (s_time s) (s_y s) (s_slope s) = Some step ->
  resume rows weights size stop (mctdh_h inv err shapes h_terms) factor energy e0 ce (mctdh_updater shapes h_terms) normalizer s e = Yields (t, y) (s', e') ->
  deriv (mctdh_h inv err shapes h_terms e) factor e' = Ok (s_slope s') /\ s_y s' = y /\ t = (s_time s + step)%R /\
  match normalizer with None => y = e' | Some g => g e' e' = Ok y end.
Proof.
  intros Es E. unfold resume, rk_step in E. destruct (s_open s); [|discriminate]. rewrite Es in E. set (d := deriv (mctdh_h inv err shapes h_terms e) factor) in *.
  destruct (stages d step rows (s_y s) [s_slope s]) as [ks|[]]; cbn [bind] in E; try discriminate. destruct (combo step weights ks (s_y s)) as [y1|[]]; cbn [bind] in E; try discriminate. destruct (d y1) as [f1|[]] eqn:Ef; cbn [bind] in E; try discriminate.
  unfold mctdh_updater in E. cbn [s_y] in E. destruct (update_mod_terms shapes h_terms y1) as [mods|]; cbn [bind] in E; try discriminate. unfold visit in E. destruct normalizer as [g|].
  - cbn [s_y] in E. destruct (g y1 y1) as [y2|] eqn:Eg; cbn [bind] in E; try discriminate. cbn [with_y s_y] in E. destruct (energy y1 y2); try discriminate. match type of E with (if ?b then _ else _) = _ => destruct b; [discriminate|] end.
    injection E as <- <- <- <-. auto.
  - cbn [s_y] in E. destruct (energy y1 y1); try discriminate. match type of E with (if ?b then _ else _) = _ => destruct b; [discriminate|] end. injection E as <- <- <- <-. auto.
Qed.
Print Assumptions C82_kept_derivative.
(** Witness: one matrix with two rows and one column, one step of length one. *)
Definition h_ex : carr := mkArr [2; 2] [RtoC 1; RtoC 2; RtoC 2; RtoC 5].
Definition inv_ex (M : carr) : res carr := Ok (mkArr [1; 1] [Cinv (get M [0; 0])]).
Definition v_ex : cvec := [r1; r0; r1].
Notation h_of := (mctdh_h inv_ex r0 (all_shapes [(2, 1)]) [[(0, h_ex)]]).
Notation energy_of := (fun _ : cvec => energy_expection (all_shapes [(2, 1)]) [[(0, h_ex)]]).
Ltac ev := lazy -[Rplus Rmult Ropp Rminus Rinv IZR].
Definition cc (a b : R) : C_star := (a, b).
Definition v_next : cvec := [r1; cc 0 (-2); cc 1 (-1)].
Lemma three (a b c a' b' c' : C_star) : a = a' -> b = b' -> c = c' -> Ok [a; b; c] = Ok [a'; b'; c'].
Proof. intros -> -> ->. reflexivity. Qed.
Lemma h_first : h_of v_ex v_ex = Ok [r0; RtoC 2; r1].
Proof. ev. apply three; apply Ceq; cbn [fst snd]; try (field; lra); lra. Qed.
Lemma h_kept : exists a b, h_of v_ex v_next = Ok [a; b; cc 1 (-1)].
Proof. ev. do 2 eexists. apply three; [reflexivity|reflexivity|]. apply Ceq; cbn [fst snd]; lra. Qed.
Lemma h_new : exists a b, h_of v_next v_next = Ok [a; b; cc 21 (-21)].
Proof. ev. do 2 eexists. apply three; [reflexivity|reflexivity|]. apply Ceq; cbn [fst snd]; lra. Qed.
Lemma e_first : energy_of v_ex v_ex = Ok r1.
Proof. ev. f_equal. apply Ceq; cbn [fst snd]; lra. Qed.
Lemma e_next : exists x, energy_of v_next v_next = Ok x.
Proof. ev. eexists. reflexivity. Qed.
Lemma u_next : exists x, update_mod_terms (all_shapes [(2, 1)]) [[(0, h_ex)]] v_next = Ok x.
Proof. ev. eexists. reflexivity. Qed.
Theorem C82_kept_derivative_refuted : exists t y s' e' d,
  after [] [1%R] (fun _ _ _ => Some 1%R) 2 h_of 1 energy_of r1 None (mctdh_updater (all_shapes [(2, 1)]) [[(0, h_ex)]]) None 1
    (first_event h_of 1 energy_of None None 0 v_ex v_ex) = Yields (t, y) (s', e') /\
  deriv (h_of e') 1 (s_y s') = Ok d /\ nth 2 (s_slope s') r0 = cc (-1) (-1) /\ nth 2 d r0 = cc (-21) (-21).
Proof.
  assert (Lin : forall e, linear_op (h_of e)) by (intros e; apply C82_linear).
  assert (D1 : deriv (h_of v_ex) 1 v_ex = Ok [r0; cc 0 (-2); cc 0 (-1)]).
  { pose proof (C82_derivative _ 1 v_ex (Lin v_ex)) as X. rewrite h_first in X. destruct X as (d & E & L & V). rewrite E. f_equal.
    destruct d as [|d0 [|d1 [|d2 [|d3 d]]]]; try discriminate. pose proof (V 0) as V0. pose proof (V 1) as V1. pose proof (V 2) as V2. cbn [nth] in V0, V1, V2. rewrite V0, V1, V2. repeat (apply f_equal2; [apply Ceq; cbn; lra|]). reflexivity. }
  assert (Y : vadd v_ex (vscale (RtoC (1 * 1)) [r0; cc 0 (-2); cc 0 (-1)]) = Ok v_next).
  { unfold vadd, vscale, v_ex, v_next. cbn [length map Nat.eqb combine fst snd]. apply three; apply Ceq; cbn; lra. }
  pose proof (C82_derivative _ 1 v_next (Lin v_ex)) as X1. destruct h_kept as (a & b & Eh). rewrite Eh in X1. destruct X1 as (f1 & E1 & _ & V1).
  pose proof (C82_derivative _ 1 v_next (Lin v_next)) as X2. destruct h_new as (a' & b' & Eh'). rewrite Eh' in X2. destruct X2 as (f2 & E2 & _ & V2).
  destruct e_next as (en & Een). destruct u_next as (mods & Eu). exists (0 + 1)%R, v_next. eexists. exists v_next, f2. split.
  - cbn [after]. unfold first_event, rk_init. rewrite e_first. rewrite D1. cbn [bind]. unfold visit at 1. cbn [s_y]. rewrite e_first. cbn [s_time]. unfold resume, rk_step. cbn [s_open s_time s_y s_slope stages bind]. cbn [combo bind]. rewrite Y. cbn [bind]. rewrite E1. cbn [bind].
    unfold mctdh_updater. cbn [s_y]. rewrite Eu. cbn [bind]. unfold visit. cbn [s_y]. rewrite Een. reflexivity.
  - cbn [s_y s_slope]. split; [exact E2|]. rewrite V1, V2. cbn [nth]. split; apply Ceq; cbn; lra.
Qed.
Print Assumptions C82_kept_derivative_refuted.

(** ** Examples *)
(** One axis of two points: the premises of C82_dvr_matrix, and one step of length one. *)
Notation hs_ex := [(2, dot_vec h_ex)].
Notation h_dvr := (fun _ : unit => po_matvec hs_ex None).
Notation energy_0 := (fun (_ : unit) (_ : cvec) => Ok r0 : res C_star).
Lemma h_ex_acts : forall i h, nth_error [(2, dot_vec h_ex)] i = Some h -> acts (fst h) (fst h) (fun x y => get h_ex [x; y]) (snd h).
Proof.
  intros [|[|i]] h E; try discriminate; try (destruct i; discriminate). injection E as <-. cbn [fst snd]. intros v L. unfold dot_vec. cbn [shape h_ex]. rewrite L. cbn [Nat.eqb]. eexists. split; [reflexivity|]. split; [reflexivity|]. intros [|[|i]] Hi; try lia; reflexivity.
Qed.
Example C82_example_matrix : exists H, acts 2 2 H (po_matvec hs_ex None) /\ forall a b, a < 2 -> b < 2 -> H a b = H b a.
Proof.
  destruct (C82_dvr_matrix [(2, dot_vec h_ex)] (fun _ x y => get h_ex [x; y]) None) as (H & A & B).
  - repeat constructor. cbn. lia.
  - exists 0. constructor.
  - exact h_ex_acts.
  - discriminate.
  - exists H. split; [exact A|]. apply B. intros i [|[|j]] [|[|k]] Hi Hj Hk; destruct i as [|i]; cbn in Hi, Hj, Hk; try lia; reflexivity.
Qed.
Lemma two (a b a' b' : C_star) : a = a' -> b = b' -> Ok [a; b] = Ok [a'; b'].
Proof. intros -> ->. reflexivity. Qed.
Lemma deriv_ex0 : deriv (po_matvec hs_ex None) 1 [r1; r0] = Ok [cc 0 (-1); cc 0 (-2)].
Proof. ev. apply two; apply Ceq; cbn [fst snd]; lra. Qed.
Lemma deriv_ex1 : exists d, deriv (po_matvec hs_ex None) 1 [cc 1 (-1); cc 0 (-2)] = Ok d.
Proof. ev. eexists. reflexivity. Qed.
Lemma first_ex : first_event h_dvr 1 energy_0 None None 0 [r1; r0] tt = Yields (0%R, [r1; r0]) (mkSolver 0 [r1; r0] [cc 0 (-1); cc 0 (-2)] true, tt).
Proof. unfold first_event, rk_init. rewrite deriv_ex0. reflexivity. Qed.
Lemma step_ex : exists d, forall stop, resume [] [1%R] (fun _ _ _ => Some 1%R) stop h_dvr 1 energy_0 r0 None (fun _ e => Ok e) None (mkSolver 0 [r1; r0] [cc 0 (-1); cc 0 (-2)] true) tt
  = Yields ((0 + 1)%R, [cc 1 (-1); cc 0 (-2)]) (mkSolver (0 + 1) [cc 1 (-1); cc 0 (-2)] d (if Rlt_dec (0 + 1) stop then true else false), tt).
Proof.
  destruct deriv_ex1 as (d & E). exists d. intros stop. unfold resume, rk_step. cbn [s_open s_time s_y s_slope stages bind combo].
  replace (vadd [r1; r0] (vscale (RtoC (1 * 1)) [cc 0 (-1); cc 0 (-2)])) with (Ok [cc 1 (-1); cc 0 (-2)]) by (unfold vadd, vscale; cbn [length map Nat.eqb combine fst snd]; apply two; apply Ceq; cbn; lra).
  cbn [bind]. rewrite E. reflexivity.
Qed.
Example C82_example_step : exists st, after [] [1%R] (fun _ _ _ => Some 1%R) 2 h_dvr 1 energy_0 r0 None (fun _ e => Ok e) None 1 (first_event h_dvr 1 energy_0 None None 0 [r1; r0] tt) = Yields ((0 + 1)%R, [cc 1 (-1); cc 0 (-2)]) st /\
  auto_value (fun _ : unit => vdot) tt [cc 1 (-1); cc 0 (-2)] = Ok (cc (-4) (-2)) /\ step_poly 1 [] [1%R] 1 = [r1; cc 0 (-1)].
Proof.
  rewrite first_ex. destruct step_ex as (d & E). eexists. split; [cbn [after]; rewrite E; reflexivity|]. split.
  - rewrite value_ok. f_equal. apply Ceq; cbn; lra.
  - unfold step_poly, p_stages, p_rate. cbn [p_sum map p_add]. repeat (apply f_equal2; [apply Ceq; cbn; lra|]). reflexivity.
Qed.
(** Two values up to the end with the old rule, an error with the new one. *)
Example C82_example_end : exists l, drain_from [] [1%R] (fun _ _ _ => Some 1%R) 1 h_dvr 1 energy_0 r0 None (fun _ e => Ok e) None false 2 (first_event h_dvr 1 energy_0 None None 0 [r1; r0] tt) = Some (Ok l) /\ length l = 2 /\
  drain_from [] [1%R] (fun _ _ _ => Some 1%R) 1 h_dvr 1 energy_0 r0 None (fun _ e => Ok e) None true 2 (first_event h_dvr 1 energy_0 None None 0 [r1; r0] tt) = Some (Raise RuntimeError) /\
  exists v, auto_from [] [1%R] (fun _ _ _ => Some 1%R) 1 h_dvr 1 energy_0 r0 None (fun _ e => Ok e) None false (fun _ => vdot) 2 1 (first_event h_dvr 1 energy_0 None None 0 [r1; r0] tt) = Some (Ok v) /\ length v = 1.
Proof.
  rewrite first_ex. destruct step_ex as (d & E). assert (N : (if Rlt_dec (0 + 1) 1 then true else false) = false) by (destruct (Rlt_dec (0 + 1) 1); [lra|reflexivity]).
  exists [(0%R, [r1; r0]); ((0 + 1)%R, [cc 1 (-1); cc 0 (-2)])]. split; [|split; [reflexivity|split]].
  - cbn [drain_from]. rewrite E, N. reflexivity.
  - cbn [drain_from]. rewrite E, N. reflexivity.
  - eexists. split; [|shelve]. cbn [auto_from]. destruct (Rlt_dec 0 1) as [X0|X0]; [|exfalso; clear - X0; lra]. rewrite value_ok. rewrite E, N. destruct (Rlt_dec (0 + 1) 1) as [X|X]; [exfalso; clear - X; lra|]. reflexivity.
    Unshelve. reflexivity.
Qed.
(** A transform as in C82_spectrum and a spectrum of two values. *)
Definition dft_ex (a : cvec) : cvec := map (fun k => rmul (RtoC (/ INR (length a))) (sumn (length a) (fun j => rmul (nth j a r0) (Cexp (0, 2 * PI * INR j * INR k / INR (length a))%R)))) (seq 0 (length a)).
Example C82_example_spectrum : inverse_dft dft_ex /\ exists r, spectrum_of dft_ex None [(0%R, r1); (1%R, C_i)] = Ok r /\ spectrum_of dft_ex None [(0%R, r1); (1%R, C_i); (3%R, r1)] = Raise NotImplementedError.
Proof.
  split.
  - intros a k. split; [unfold dft_ex; now rewrite map_length, seq_length|]. intros Hk. unfold dft_ex. set (g := fun k0 : nat => _). rewrite (nth_indep _ r0 (g 0)) by (rewrite map_length, seq_length; exact Hk). rewrite (map_nth g), seq_nth by exact Hk. reflexivity.
  - eexists. split.
    + rewrite spectrum_eq. cbv zeta. set (tau := _ : R). assert (T : tau = 1%R) by (unfold tau; cbn; field). rewrite T. cbn [combine seq length forallb fst snd].
      destruct (Rlt_dec _ _) as [|N]; [|exfalso; apply N; replace (0 - INR 0 * 1)%R with 0%R by (cbn; ring); rewrite Rabs_R0; lra]. destruct (Rlt_dec _ _) as [|N]; [reflexivity|exfalso; apply N; replace (1 - INR 1 * 1)%R with 0%R by (cbn; ring); rewrite Rabs_R0; lra].
    + rewrite spectrum_eq. cbv zeta. set (tau := _ : R). assert (T : tau = (3 / 2)%R) by (unfold tau; cbn; field). rewrite T. cbn [combine seq length forallb fst snd].
      destruct (Rlt_dec (Rabs (0 - _)) _) as [|N]; [|reflexivity]. destruct (Rlt_dec _ _) as [X|N]; [|reflexivity]. exfalso. replace (1 - INR 1 * (3 / 2))%R with (- (1 / 2))%R in X by (cbn; lra). rewrite Rabs_Ropp, Rabs_pos_eq in X by lra. lra.
Qed.
(** The normalizer divides the matrix (2, 0) and the tensor (3). *)
Example C82_example_normalizer : pieces [(2, 1)] [mkArr [2; 1] [RtoC 2; r0]] (mkArr [1] [RtoC 3]) [RtoC 2; r0; RtoC 3] /\ mctdh_normalizer [(2, 1)] [RtoC 2; r0; RtoC 3] = Ok [r1; r0; r1].
Proof.
  assert (P : pieces [(2, 1)] [mkArr [2; 1] [RtoC 2; r0] : carr] (mkArr [1] [RtoC 3]) [RtoC 2; r0; RtoC 3]) by (split; [constructor; [split; reflexivity|constructor]|split; [reflexivity|split; reflexivity]]).
  split; [exact P|]. assert (F1 : Forall (fun s : nat * nat => 0 < snd s) [(2, 1)]) by (repeat constructor). assert (F2 : Forall (fun C : carr => (0 < size2 (data C))%R) [mkArr [2; 1] [RtoC 2; r0]]) by (constructor; [lazy -[Rplus Rmult IZR Rlt]; lra|constructor]). assert (F3 : (0 < size2 (data (mkArr [1%nat] [RtoC 3])))%R) by (lazy -[Rplus Rmult IZR Rlt]; lra). destruct (normalizer_ok _ _ _ _ P F1 F2 F3) as (E & _). rewrite E. unfold scaled_all, scaled. cbn [combine map app concat data fst snd shape vscale].
  assert (S1 : sqrt (INR 1 / size2 [RtoC 2; r0 : C_star]) = (/ 2)%R) by (replace (INR 1 / size2 [RtoC 2; r0 : C_star])%R with (/ 2 * / 2)%R by (lazy -[Rplus Rmult IZR Rinv Ropp Rdiv]; unfold Rdiv; field); apply sqrt_square; lra).
  assert (S2 : sqrt (1 / size2 [RtoC 3]) = (/ 3)%R) by (replace (1 / size2 [RtoC 3])%R with (/ 3 * / 3)%R by (lazy -[Rplus Rmult IZR Rinv Ropp Rdiv]; unfold Rdiv; field); apply sqrt_square; lra).
  rewrite S1, S2. apply three; apply Ceq; cbn; lra.
Qed.
