(** What the generators yield. *)
From Coq Require Import List Arith ZArith Bool Lia Ring Reals Lra.
From Verif Require Import Py Alg ListX NdArray_Model NdArray_Proof Cplx PoDvr_Spec PoDvr_Model Mctdh_Model EomRate_Proof March_Spec March_Model MarchLin_Proof.
Import ListNotations.
Local Open Scope nat_scope.
Local Open Scope list_scope.
Add Ring Cr : (r_theory C_star).

(** ** The derivative *)
Lemma nth_re (y : cvec) k : nth k (v_re y) r0 = RtoC (fst (nth k y (r0 : C_star))).
Proof. unfold v_re. revert k. induction y as [|x y IH]; intros [|k]; cbn [map nth]; auto. Qed.
Lemma nth_im (y : cvec) k : nth k (v_im y) r0 = RtoC (snd (nth k y (r0 : C_star))).
Proof. unfold v_im. revert k. induction y as [|x y IH]; intros [|k]; cbn [map nth]; auto. Qed.
Lemma split_lin (y : cvec) : vlin C_i (v_re y) (v_im y) y.
Proof.
  split; [unfold v_re, v_im; now rewrite !map_length|]. split; [unfold v_re; now rewrite map_length|]. intros k. rewrite nth_re, nth_im. destruct (nth k y r0) as (a, b). apply Ceq; cbn; ring.
Qed.
Lemma nth_scale c (a : cvec) k : nth k (vscale c a) r0 = rmul c (nth k a r0).
Proof. unfold vscale. revert k. induction a as [|x a IH]; intros [|k]; cbn [map nth]; auto; ring. Qed.
Lemma vadd_ok (a b : cvec) : length b = length a -> exists z, vadd a b = Ok z /\ length z = length a /\ forall k, nth k z r0 = radd (nth k a r0) (nth k b r0).
Proof.
  intros L. unfold vadd. rewrite L, Nat.eqb_refl. eexists. split; [reflexivity|]. split; [rewrite map_length, combine_length; lia|]. intros k. rewrite (nth_map2 C_star radd); [reflexivity|ring|auto].
Qed.
Lemma scale_len c (a : cvec) : length (vscale c a) = length a.
Proof. unfold vscale. now rewrite map_length. Qed.
Lemma deriv_ok h f (y : cvec) : linear_op h ->
  match h y with
  | Ok w => exists d, deriv h f y = Ok d /\ length d = length w /\ forall k, nth k d r0 = rmul (ropp (rmul C_i (RtoC f))) (nth k w r0)
  | Raise e => deriv h f y = Raise e
  end.
Proof.
  intros L. pose proof (L _ _ _ _ (split_lin y)) as T. unfold deriv. destruct (h (v_re y)) as [wr|e1], (h (v_im y)) as [wi|e2], (h y) as [w|e3]; cbn [tri] in T; try contradiction; cbn [bind]; [|now destruct T as (-> & ->)].
  destruct T as (L1 & L2 & V). destruct (vadd_ok (vscale (RtoC f) wi) (vscale C_i (vscale (RtoC (- f)) wr))) as (d & E & Ld & Vd); [rewrite !scale_len; congruence|]. exists d. split; [exact E|]. rewrite scale_len in Ld. split; [congruence|].
  intros k. rewrite Vd, V, !nth_scale, RtoC_opp. transitivity (radd (rmul (ropp (rmul C_i C_i)) (rmul (RtoC f) (nth k wi r0))) (rmul (ropp (rmul C_i (RtoC f))) (nth k wr r0))); [rewrite C_i2|]; ring.
Qed.
Lemma mctdh_linear inv err shapes self terms : linear_op (fun v => bind (h_matvec inv err shapes self v terms) (fun a => Ok (data a))).
Proof. intros c a b z V. eapply tri_bind; [apply matvec_lin; exact V|]. intros x y w (_ & _ & W). exact W. Qed.
Lemma po_linear hs d : Forall (fun h : @op1 C_star => linear_op (snd h)) hs -> linear_op (po_matvec hs d).
Proof. intros F c a b z V. now apply po_lin. Qed.
Lemma dot_linear (m : arr C_star) : linear_op (dot_vec m).
Proof. intros c a b z V. now apply dot_lin_v. Qed.

(** ** Polynomials of a matrix *)
Section Poly.
Variables (n : nat) (H : nat -> nat -> C_star).
Notation M := (times_mat n H). Notation P := (poly_of n H).
Lemma mat_ext f g k : (forall j, j < n -> f j = g j) -> M f k = M g k.
Proof. intros E. apply sumn_ext. intros j Hj. now rewrite E. Qed.
Lemma poly_ext : forall p f g k, k < n -> (forall j, j < n -> f j = g j) -> P p f k = P p g k.
Proof. induction p as [|a p IH]; intros f g k Hk E; cbn [poly_of]; auto. rewrite E by auto. f_equal. apply mat_ext. intros j Hj. now apply IH. Qed.
Lemma mat_add f g k : M (fun j => radd (f j) (g j)) k = radd (M f k) (M g k).
Proof. unfold times_mat. rewrite <- sumn_add. apply sumn_ext. intros. ring. Qed.
Lemma mat_scal c f k : M (fun j => rmul c (f j)) k = rmul c (M f k).
Proof. unfold times_mat. rewrite <- sumn_scal_l. apply sumn_ext. intros. ring. Qed.
Lemma mat_0 f k : (forall j, j < n -> f j = r0) -> M f k = r0.
Proof. intros E. unfold times_mat. apply sumn_zero. intros j Hj. rewrite E by auto. ring. Qed.
Lemma poly_addp : forall p q f k, P (p_add p q) f k = radd (P p f k) (P q f k).
Proof.
  induction p as [|a p IH]; intros [|b q] f k; cbn [p_add poly_of]; try ring. rewrite (mat_ext _ (fun j => radd (P p f j) (P q f j))) by (intros; apply IH). rewrite mat_add. ring.
Qed.
Lemma poly_scalp c : forall p f k, P (map (rmul c) p) f k = rmul c (P p f k).
Proof.
  induction p as [|a p IH]; intros f k; cbn [map poly_of]; try ring. rewrite (mat_ext _ (fun j => rmul c (P p f j))) by (intros; apply IH). rewrite mat_scal. ring.
Qed.
Lemma poly_add : forall p f g k, P p (fun j => radd (f j) (g j)) k = radd (P p f k) (P p g k).
Proof. induction p as [|a p IH]; intros f g k; cbn [poly_of]; try ring. rewrite (mat_ext _ (fun j => radd (P p f j) (P p g j))) by (intros; apply IH). rewrite mat_add. ring. Qed.
Lemma poly_scal c : forall p f k, P p (fun j => rmul c (f j)) k = rmul c (P p f k).
Proof. induction p as [|a p IH]; intros f k; cbn [poly_of]; try ring. rewrite (mat_ext _ (fun j => rmul c (P p f j))) by (intros; apply IH). rewrite mat_scal. ring. Qed.
(** A polynomial commutes with the matrix, and with any other polynomial. *)
Lemma poly_mat : forall p f k, P p (M f) k = M (P p f) k.
Proof.
  induction p as [|a p IH]; intros f k; cbn [poly_of]; [symmetry; now apply mat_0|]. rewrite mat_add, mat_scal. f_equal. apply mat_ext. intros j _. apply IH.
Qed.
Lemma poly_comm : forall p q f k, k < n -> P p (P q f) k = P q (P p f) k.
Proof.
  induction p as [|a p IH]; intros q f k Hk; cbn [poly_of].
  - rewrite (poly_ext q _ (fun j => rmul r0 (f j))) by (auto; intros; cbn [poly_of]; ring). rewrite poly_scal. ring.
  - transitivity (P q (fun j => radd (rmul a (f j)) (M (P p f) j)) k); [|apply poly_ext; auto]. rewrite poly_add, poly_scal, poly_mat. f_equal. apply mat_ext. intros j Hj. now apply IH.
Qed.
Hypothesis Sym : forall j k, j < n -> k < n -> H j k = H k j.
Lemma mat_sym f g : sumn n (fun k => rmul (M f k) (g k)) = sumn n (fun k => rmul (f k) (M g k)).
Proof.
  unfold times_mat. transitivity (sumn n (fun k => sumn n (fun j => rmul (rmul (H k j) (f j)) (g k)))); [apply sumn_ext; intros; now rewrite sumn_scal_r|]. rewrite sumn_swap. apply sumn_ext. intros k Hk. rewrite <- sumn_scal_l. apply sumn_ext. intros j Hj. rewrite (Sym j k) by auto. ring.
Qed.
Lemma poly_sym : forall p f g, sumn n (fun k => rmul (P p f k) (g k)) = sumn n (fun k => rmul (f k) (P p g k)).
Proof.
  induction p as [|a p IH]; intros f g; cbn [poly_of]; [rewrite !sumn_zero; auto; intros; ring|].
  rewrite (sumn_ext C_star n _ (fun k => radd (rmul a (rmul (f k) (g k))) (rmul (M (P p f) k) (g k)))) by (intros; ring). rewrite sumn_add.
  rewrite (sumn_ext C_star n (fun k => rmul (f k) _) (fun k => radd (rmul a (rmul (f k) (g k))) (rmul (f k) (M (P p g) k)))) by (intros; ring). rewrite sumn_add. f_equal.
  rewrite mat_sym, IH. apply sumn_ext. intros k _. f_equal. apply poly_mat.
Qed.
End Poly.

(** ** The steps of the solver *)
Notation at_ v := (fun k : nat => nth k v (r0 : C_star)).
Lemma vdot_ok (a b : cvec) : length b = length a -> vdot a b = Ok (sumn (length a) (fun k => rmul (nth k a r0) (nth k b r0))).
Proof.
  intros L. unfold vdot. rewrite L, Nat.eqb_refl. f_equal. revert b L. induction a as [|x a IH]; intros [|y b] L; try discriminate; [reflexivity|]. cbn [combine map length]. rewrite sumn_S_l. cbn [nth]. rewrite <- (IH b) by (injection L; auto). reflexivity.
Qed.
Section Steps.
Variables (n : nat) (H : nat -> nat -> C_star) (f : R) (rows : list (list R)) (weights : list R).
Notation M := (times_mat n H). Notation P := (poly_of n H).
Notation steps_ := (steps f rows weights n H).
Lemma steps_ext : forall hs u v k, k < n -> (forall j, j < n -> u j = v j) -> steps_ hs u k = steps_ hs v k.
Proof. induction hs as [|h hs IH]; intros u v k Hk E; cbn [steps fold_left]; auto. apply IH; auto. intros j Hj. now apply poly_ext. Qed.
Lemma poly_steps p : forall hs g k, k < n -> P p (steps_ hs g) k = steps_ hs (P p g) k.
Proof.
  induction hs as [|h hs IH]; intros g k Hk; [reflexivity|]. change (steps_ (h :: hs) g) with (steps_ hs (P (step_poly f rows weights h) g)). rewrite IH by auto.
  change (steps_ (h :: hs) (P p g) k) with (steps_ hs (P (step_poly f rows weights h) (P p g)) k). apply steps_ext; auto. intros j Hj. now apply poly_comm.
Qed.
Lemma steps_app a b v : steps_ (a ++ b) v = steps_ b (steps_ a v).
Proof. apply fold_left_app. Qed.
Lemma steps_sym : (forall j k, j < n -> k < n -> H j k = H k j) -> forall hs u v, sumn n (fun k => rmul (steps_ hs u k) (v k)) = sumn n (fun k => rmul (u k) (steps_ hs v k)).
Proof.
  intros Sy. induction hs as [|h hs IH]; intros u v; [reflexivity|]. change (steps_ (h :: hs) u) with (steps_ hs (P (step_poly f rows weights h) u)). rewrite IH, poly_sym by auto. apply sumn_ext. intros k Hk. f_equal.
  change (steps_ (h :: hs) v k) with (steps_ hs (P (step_poly f rows weights h) v) k). now apply poly_steps.
Qed.

Definition is_poly (v : nat -> C_star) (k : cvec) (p : list C_star) : Prop := length k = n /\ forall i, i < n -> nth i k r0 = P p v i.
Lemma deriv_acts h y : acts n n H h -> length y = n -> exists d, deriv h f y = Ok d /\ length d = n /\ forall i, i < n -> nth i d r0 = rmul (ropp (rmul C_i (RtoC f))) (M (at_ y) i).
Proof.
  intros A L. destruct (A (v_im y)) as (wi & Ei & Li & Vi); [unfold v_im; now rewrite map_length|]. destruct (A (v_re y)) as (wr & Er & Lr & Vr); [unfold v_re; now rewrite map_length|].
  unfold deriv. rewrite Ei, Er. cbn [bind]. destruct (vadd_ok (vscale (RtoC f) wi) (vscale C_i (vscale (RtoC (- f)) wr))) as (d & E & Ld & Vd); [rewrite !scale_len; congruence|]. exists d. split; [exact E|]. rewrite scale_len in Ld. split; [congruence|].
  intros i Hi. rewrite Vd, !nth_scale, Vi, Vr by auto.
  assert (X : M (at_ y) i = radd (sumn n (fun k => rmul (H i k) (nth k (v_re y) r0))) (rmul C_i (sumn n (fun k => rmul (H i k) (nth k (v_im y) r0))))).
  { unfold times_mat. rewrite <- sumn_scal_l, <- sumn_add. apply sumn_ext. intros k Hk. destruct (split_lin y) as (_ & _ & V). rewrite (V k). ring. }
  rewrite X, RtoC_opp. set (a := sumn n _). set (b := sumn n _). transitivity (radd (rmul (ropp (rmul C_i C_i)) (rmul (RtoC f) a)) (rmul (ropp (rmul C_i (RtoC f))) b)); [rewrite C_i2|]; ring.
Qed.
Lemma rate_poly p v i : P (p_rate f p) v i = rmul (ropp (rmul C_i (RtoC f))) (M (P p v) i).
Proof. unfold p_rate. cbn [poly_of]. rewrite (mat_ext n H _ (fun j => rmul (ropp (rmul C_i (RtoC f))) (P p v j))) by (intros; apply poly_scalp). rewrite mat_scal. ring. Qed.
Lemma combo_ok h v : forall cs ks ps y, Forall2 (is_poly v) ks ps -> length y = n -> exists z, combo h cs ks y = Ok z /\ length z = n /\ forall i, i < n -> nth i z r0 = radd (nth i y r0) (P (p_sum h cs ps) v i).
Proof.
  induction cs as [|c cs IH]; intros ks ps y F L; [exists y; split; [reflexivity|]; split; auto; intros; cbn [p_sum poly_of]; ring|].
  destruct F as [|k p ks ps (Lk & Vk) F]; [exists y; split; [reflexivity|]; split; auto; intros; cbn [p_sum poly_of]; ring|].
  cbn [combo p_sum]. destruct (vadd_ok y (vscale (RtoC (h * c)) k)) as (y' & E & L' & V'); [rewrite scale_len; congruence|]. rewrite E. cbn [bind]. destruct (IH ks ps y' F) as (z & Ez & Lz & Vz); [congruence|]. exists z. split; [exact Ez|]. split; [exact Lz|].
  intros i Hi. rewrite Vz, V', nth_scale, Vk, poly_addp, poly_scalp by auto. ring.
Qed.
Lemma one_poly v i : P [r1] v i = v i.
Proof. cbn [poly_of]. rewrite mat_0 by auto. ring. Qed.
Lemma stages_ok h hm y : acts n n H hm -> length y = n -> forall rs ks ps, Forall2 (is_poly (at_ y)) ks ps -> exists ks', stages (deriv hm f) h rs y ks = Ok ks' /\ Forall2 (is_poly (at_ y)) ks' (p_stages f h rs ps).
Proof.
  intros A L. induction rs as [|r rs IH]; intros ks ps F; [exists ks; split; auto|]. cbn [stages p_stages]. destruct (combo_ok h _ r ks ps y F L) as (x & E & Lx & Vx). rewrite E. cbn [bind].
  destruct (deriv_acts hm x A Lx) as (k & Ek & Lk & Vk). rewrite Ek. cbn [bind]. apply IH. apply Forall2_app; auto. constructor; [|constructor]. split; auto. intros i Hi. rewrite Vk, rate_poly by auto. f_equal. apply mat_ext.
  intros j Hj. rewrite Vx, poly_addp, one_poly by auto. reflexivity.
Qed.
(** The derivative kept is that of the vector. *)
Definition kept (s : solver) : Prop := length (s_y s) = n /\ length (s_slope s) = n /\ forall i, i < n -> nth i (s_slope s) r0 = rmul (ropp (rmul C_i (RtoC f))) (M (at_ (s_y s)) i).
Lemma step_ok size stop hm s : acts n n H hm -> kept s ->
  if s_open s then
    exists s', rk_step rows weights size stop (deriv hm f) s = Ok s' /\ kept s' /\
      match size (s_time s) (s_y s) (s_slope s) with
      | None => s_time s' = s_time s /\ s_y s' = s_y s
      | Some h => s_time s' = (s_time s + h)%R /\ forall i, i < n -> nth i (s_y s') r0 = P (step_poly f rows weights h) (at_ (s_y s)) i
      end
  else rk_step rows weights size stop (deriv hm f) s = Raise RuntimeError.
Proof.
  intros A (Ly & Ls & Vs). unfold rk_step. destruct (s_open s); [|reflexivity]. destruct (size (s_time s) (s_y s) (s_slope s)) as [h|].
  - destruct (stages_ok h hm (s_y s) A Ly rows [s_slope s] [p_rate f [r1]]) as (ks & Ek & F).
    { constructor; [|constructor]. split; auto. intros i Hi. rewrite Vs, rate_poly by auto. f_equal. apply mat_ext. intros j Hj. now rewrite one_poly. }
    rewrite Ek. cbn [bind]. destruct (combo_ok h _ weights ks _ (s_y s) F Ly) as (y & E & L' & V'). rewrite E. cbn [bind]. destruct (deriv_acts hm y A L') as (d & Ed & Ld & Vd). rewrite Ed. cbn [bind]. eexists. split; [reflexivity|]. split; [split; [exact L'|split; [exact Ld|exact Vd]]|].
    split; [reflexivity|]. intros i Hi. cbn [s_y]. rewrite V' by auto. unfold step_poly. now rewrite poly_addp, one_poly.
  - eexists. split; [reflexivity|]. split; [split; [exact Ly|split; [exact Ls|exact Vs]]|]. split; reflexivity.
Qed.

(** ** What [propagation] yields, without updater and normalizer *)
Section After.
Context {env : Type}.
Variables (size : R -> cvec -> cvec -> option R) (stop : R) (h : env -> cvec -> res cvec) (energy : env -> cvec -> res C_star) (ce : option R).
Notation upd_ := (fun (_ : solver) (e : env) => Ok e : res env).
Lemma after_ok e0 start init e : acts n n H (h e) -> length init = n -> forall k t y s' e', energy e init = Ok e0 ->
  after rows weights size stop h f energy e0 ce upd_ None k (first_event h f energy ce None start init e) = Yields (t, y) (s', e') ->
  e' = e /\ kept s' /\ y = s_y s' /\ t = s_time s' /\
  exists hs, length hs <= k /\ t = (start + total hs)%R /\ forall i, i < n -> nth i y r0 = steps_ hs (at_ init) i.
Proof.
  intros A L. induction k as [|k IH]; intros t y s' e' Ee E.
  - cbn [after] in E. unfold first_event in E. rewrite Ee in E. unfold rk_init in E. destruct (deriv_acts (h e) init A L) as (d & Ed & Ld & Vd). rewrite Ed in E. cbn [bind] in E. unfold visit in E. cbn [s_y] in E. rewrite Ee in E.
    match type of E with (if ?b then _ else _) = _ => destruct b; [discriminate|] end. injection E as <- <- <- <-. split; [reflexivity|]. split; [split; [exact L|split; [exact Ld|exact Vd]]|]. split; [reflexivity|]. split; [reflexivity|].
    exists []. split; [cbn; lia|]. split; [cbn; ring|]. intros i Hi. reflexivity.
  - cbn [after] in E. destruct (after rows weights size stop h f energy e0 ce upd_ None k _) as [(t1, y1) (s1, e1)| |x] eqn:E1; try discriminate. destruct (IH t1 y1 s1 e1 Ee eq_refl) as (-> & K1 & Y1 & T1 & hs & Lh & Th & Vh).
    unfold resume in E. pose proof (step_ok size stop (h e) s1 A K1) as St. destruct (s_open s1); [|rewrite St in E; discriminate]. destruct St as (s2 & E2 & K2 & D2). rewrite E2 in E. unfold visit in E. destruct (energy e (s_y s2)) as [en|]; [|discriminate].
    match type of E with (if ?b then _ else _) = _ => destruct b; [discriminate|] end. injection E as <- <- <- <-. split; [reflexivity|]. split; [exact K2|]. split; [reflexivity|]. split; [reflexivity|].
    destruct (size (s_time s1) (s_y s1) (s_slope s1)) as [st|]; destruct D2 as (D2 & V2).
    + exists (hs ++ [st]). split; [rewrite app_length; cbn; lia|]. split.
      * rewrite D2, <- T1, Th. unfold total. rewrite fold_right_app. cbn [fold_right]. clear. rewrite Rplus_assoc. f_equal. rewrite Rplus_0_r. induction hs as [|a hs IH]; cbn [fold_right]; [ring|]. rewrite <- IH. ring.
      * intros i Hi. rewrite V2 by auto. rewrite steps_app. change (P (step_poly f rows weights st) (at_ (s_y s1)) i = P (step_poly f rows weights st) (steps_ hs (at_ init)) i). apply poly_ext; auto. intros j Hj. rewrite <- Y1. now apply Vh.
    + exists hs. split; [lia|]. rewrite D2, V2, <- T1, <- Y1. auto.
Qed.
Lemma value_ok (y : cvec) (e : env) : auto_value (fun _ => vdot) e y = Ok (sumn (length y) (fun k => rmul (nth k y r0) (nth k y r0))).
Proof.
  unfold auto_value. assert (Lr : length (v_re y) = length y) by (unfold v_re; now rewrite map_length). assert (Li : length (v_im y) = length y) by (unfold v_im; now rewrite map_length).
  rewrite (vdot_ok (v_re y) (v_re y)), (vdot_ok (v_im y) (v_im y)), (vdot_ok (v_re y) (v_im y)) by congruence. cbn [bind]. f_equal. rewrite Lr, Li. rewrite <- sumn_scal_l.
  transitivity (radd (radd (sumn (length y) (fun k => rmul (nth k (v_re y) r0) (nth k (v_re y) r0))) (rmul (ropp r1) (sumn (length y) (fun k => rmul (nth k (v_im y) r0) (nth k (v_im y) r0))))) (sumn (length y) (fun i => rmul (rmul (RtoC 2) C_i) (rmul (nth i (v_re y) r0) (nth i (v_im y) r0))))); [ring|].
  rewrite <- sumn_scal_l, <- !sumn_add. apply sumn_ext. intros k _. destruct (split_lin y) as (_ & _ & V). rewrite (V k). set (a := nth k (v_re y) r0). set (b := nth k (v_im y) r0).
  transitivity (radd (radd (rmul a a) (rmul (rmul C_i C_i) (rmul b b))) (rmul (rmul (RtoC 2) C_i) (rmul a b))); [rewrite C_i2; ring|]. replace (RtoC 2) with (radd r1 r1 : C_star) by (apply Ceq; cbn; ring). ring.
Qed.
End After.
End Steps.
