(** Theorems about the eigenvalue solver. *)
From Coq Require Import ZArith List Arith Bool Lia.
From Verif Require Import Py Alg Davidson_Model Davidson_Spec Davidson_Proof.
Import ListNotations.
Local Open Scope nat_scope.

(** ** C49: the number of cycles and the room *)
(** In eigenvalue mode every cycle is run, whatever the residuals are. *)
Theorem C49_all_cycles (K : StarRing) N (L : @library K) max_cycle msc n_vals vs pre vals us st :
  kernel_eig N L max_cycle msc n_vals vs pre = Ok (vals, us, st) -> length (s_log st) = max_cycle.
Proof.
  unfold kernel_eig. destruct (cycles _ _ _ _ _ _ _) as [st'|] eqn:E; cbn [bind]; [|discriminate]. destruct (cycles_count N L msc n_vals max_cycle (init vs pre []) st' eq_refl E) as (Hc & _).
  destruct (ritz_vecs _ _ _); cbn [bind]; [|discriminate]. destruct (ritz_of _); cbn [bind]; [|discriminate]. intros X. injection X as _ _ <-. exact Hc.
Qed.
Print Assumptions C49_all_cycles.

(** No search space exceeds the allocated size; storing never fails. *)
Theorem C49_bounded (K : StarRing) N (L : @library K) max_cycle msc n_vals vs pre :
  (forall t, length (orth L t) <= length t) -> eigh_sizes (eigh L) -> 1 <= n_vals -> length vs <= msc + 3 * n_vals ->
  match kernel_eig N L max_cycle msc n_vals vs pre with
  | Ok (_, _, st) => length (s_search st) <= msc + 3 * n_vals /\ Forall (fun e => length (fst e) <= msc + 3 * n_vals) (s_log st)
  | Raise e => e = ValueError \/ e = TypeError
  end.
Proof.
  intros HS HE Hv Hl. unfold kernel_eig. pose proof (cycles_room N L msc n_vals false HS HE Hv max_cycle (init vs pre []) eq_refl) as R.
  destruct (cycles _ _ _ _ _ _ _) as [st|e]; cbn [bind].
  - destruct R as (_ & R1 & R2); [exact Hl|constructor|]. unfold ritz_vecs. destruct (s_rvecs st); cbn [bind]; [|auto]. unfold ritz_of. destruct (s_ritz st); cbn [bind]; auto.
  - left. apply R; [exact Hl|constructor].
Qed.
Print Assumptions C49_bounded.

(** More independent initial vectors than the allocated size are refused. *)
Theorem C49_overfull (K : StarRing) N (L : @library K) max_cycle msc n_vals vs pre :
  vs <> [] -> msc + 3 * n_vals < length (orth L vs) -> kernel_eig N L (S max_cycle) msc n_vals vs pre = Raise IndexError.
Proof.
  intros Hv H. unfold kernel_eig. rewrite cycles_S by reflexivity. unfold extended. cbn [init s_trial s_search s_col s_sub negb app length]. destruct vs as [|v vs]; [congruence|]. cbn [step_on]. rewrite fill_over by exact H. reflexivity.
Qed.
Print Assumptions C49_overfull.

(** If the first cycle ends in a restart, the preconditioner given by the user has no effect. *)
Theorem C49_restart_forgets (K : StarRing) N (L : @library K) max_cycle msc n_vals vs pre pre' :
  eigh_sizes (eigh L) -> vs <> [] -> msc + 3 * n_vals < Nat.min (length (orth L vs)) n_vals + length (orth L vs) ->
  kernel_eig N L (S max_cycle) msc n_vals vs pre = kernel_eig N L (S max_cycle) msc n_vals vs pre'.
Proof.
  intros HE Hv H. unfold kernel_eig. pose proof (forget N L msc n_vals pre pre' max_cycle (init vs None []) eq_refl) as F. change (set_pre pre (init vs None [])) with (init vs pre []) in F.
  change (set_pre pre' (init vs None [])) with (init vs pre' []) in F. rewrite F; [reflexivity|]. intros st1 E. rewrite (extended_search _ _ _ _ _ _ _ E). destruct vs as [|v vs]; [congruence|]. cbn [init s_search s_trial app step_on].
  destruct (HE (length (orth L (v :: vs))) (s_sub st1) (Nat.min (length (orth L (v :: vs))) n_vals)) as (-> & _). exact H.
Qed.
Print Assumptions C49_restart_forgets.

(** With more eigenvalues than [max_space] and vectors that stay independent every third cycle ends
    in a restart; if the number of cycles is a multiple of three, the result is lost. *)
Theorem C49_last_cycle_refuted (K : StarRing) N (L : @library K) m msc n_vals vs pre :
  (forall t, length (orth L t) <= length t) -> (forall t, length t = n_vals -> length (orth L t) = n_vals) -> eigh_sizes (eigh L) -> (forall v, lin_big L v = true) ->
  msc < n_vals -> length vs = n_vals -> kernel_eig N L (3 * S m) msc n_vals vs pre = Raise TypeError.
Proof.
  intros HS HO HE HB Hk Hl. unfold kernel_eig. destruct (thirds N L msc n_vals m HS HO HE HB Hk (init vs pre [])) as (st & -> & Hr); [split; [reflexivity|split; [reflexivity|exact Hl]]|].
  cbn [bind]. unfold ritz_vecs. rewrite Hr. reflexivity.
Qed.
Print Assumptions C49_last_cycle_refuted.

(** ** C50: the projected matrix *)
(** Every matrix given to the eigenvalue routine, and the one kept at the end, is that of the
    operator in the search space of that moment, each entry converted by [cast]; the search
    spaces are orthonormal. *)
Theorem C50_projected (K : StarRing) N (L : @library K) max_cycle msc n_vals vs pre vals us st :
  hermitian N (matvec L) -> (forall x, cast L (rconj (cast L x)) = cast L (rconj x)) -> orth_ok N (orth L) ->
  kernel_eig N L max_cycle msc n_vals vs pre = Ok (vals, us, st) ->
  Forall (fun e => orthonormal N (fst e) /\ projected N (cast L) (matvec L) (fst e) (snd e)) (s_log st) /\
  orthonormal N (s_search st) /\ projected N (cast L) (matvec L) (s_search st) (s_sub st).
Proof.
  intros HA HC HO. unfold kernel_eig. destruct (cycles _ _ _ _ _ _ _) as [st'|] eqn:E; cbn [bind]; [|discriminate]. destruct (init_good N L vs pre) as (G & Ap).
  pose proof (cycles_good N L msc n_vals false HA HC (step_orth N L HO) max_cycle _ _ G Ap E) as [G1 G2 G3 G4 G5 G6].
  destruct (ritz_vecs _ _ _); cbn [bind]; [|discriminate]. destruct (ritz_of _); cbn [bind]; [|discriminate]. intros X. injection X as _ _ <-. auto.
Qed.
Print Assumptions C50_projected.

(** The same in search mode *)
Theorem C50_search_projected (K : StarRing) N (L : @library K) max_cycle msc n_vals vs pre ws st :
  hermitian N (matvec L) -> (forall x, cast L (rconj (cast L x)) = cast L (rconj x)) -> norm_ok N (gs_big L) (inv_norm L) ->
  kernel_search N L max_cycle msc n_vals vs pre = Ok (ws, st) ->
  Forall (fun e => orthonormal N (fst e) /\ projected N (cast L) (matvec L) (fst e) (snd e)) (s_log st) /\
  orthonormal N ws /\ projected N (cast L) (matvec L) ws (s_sub st).
Proof.
  intros HA HC HO. unfold kernel_search. destruct (cycles _ _ _ _ _ _ _) as [st'|] eqn:E; cbn [bind]; [|discriminate]. destruct (init_good N L vs pre) as (G & Ap).
  pose proof (cycles_good N L msc n_vals true HA HC (step_gs N L HO) max_cycle _ _ G Ap E) as [G1 G2 G3 G4 G5 G6]. intros X. injection X as <- <-. auto.
Qed.
Print Assumptions C50_search_projected.

(** An entry changed by the conversion is wrong in the matrix given to the eigenvalue routine. *)
Theorem C50_complex_refuted (K : StarRing) N (L : @library K) max_cycle msc n_vals vs pre vals us st V s i j :
  hermitian N (matvec L) -> (forall x, cast L (rconj (cast L x)) = cast L (rconj x)) -> orth_ok N (orth L) ->
  kernel_eig N L max_cycle msc n_vals vs pre = Ok (vals, us, st) ->
  In (V, s) (s_log st) -> i < length V -> j < length V ->
  cast L (inner N (at_ V i) (matvec L (at_ V j))) <> inner N (at_ V i) (matvec L (at_ V j)) ->
  s i j <> inner N (at_ V i) (matvec L (at_ V j)).
Proof.
  intros HA HC HO E HI Hi Hj Hc. destruct (C50_projected _ _ _ _ _ _ _ _ _ _ _ HA HC HO E) as (F & _). rewrite Forall_forall in F. destruct (F _ HI) as (_ & P). cbn [fst snd] in P. rewrite P by auto. exact Hc.
Qed.
Print Assumptions C50_complex_refuted.

(** ** C62: the results *)
(** If the eigenvalue routine answers correctly for the last matrix and the conversion keeps its
    entries, the vectors returned are orthonormal, lie in the search space, and the residuals
    are orthogonal to the search space. *)
Theorem C62_galerkin (K : StarRing) N (L : @library K) max_cycle msc n_vals vs pre vals us st :
  hermitian N (matvec L) -> linear N (matvec L) -> (forall x, cast L (rconj (cast L x)) = cast L (rconj x)) -> orth_ok N (orth L) ->
  kernel_eig N L max_cycle msc n_vals vs pre = Ok (vals, us, st) ->
  let n := length (s_search st) in let k := Nat.min n n_vals in
  eigenpairs n (s_sub st) k (eigh L n (s_sub st) k) ->
  (forall i j, i < n -> j < n -> let x := inner N (at_ (s_search st) i) (matvec L (at_ (s_search st) j)) in cast L x = x) ->
  length vals = k /\ length us = k /\ orthonormal N us /\ Forall (spanned N (s_search st)) us /\
  forall i w, i < k -> In w (s_search st) -> inner N w (matvec L (at_ us i)) = rmul (nth i vals r0) (inner N w (at_ us i)).
Proof.
  intros HA HL HC HO E n k HP Hc. destruct (C50_projected _ _ _ _ _ _ _ _ _ _ _ HA HC HO E) as (_ & Ho & Hp). unfold kernel_eig in E.
  destruct (cycles _ _ _ _ _ _ _) as [st'|] eqn:Ec; cbn [bind] in E; [|discriminate]. unfold ritz_vecs in E. destruct (s_rvecs st') as [rows|] eqn:Er; cbn [bind] in E; [|discriminate].
  unfold ritz_of in E. destruct (s_ritz st') as [vals'|] eqn:Ev; cbn [bind] in E; [|discriminate]. injection E as -> <- ->.
  destruct (cycles_pairs N L msc n_vals max_cycle (init vs pre []) st eq_refl) with (rows := rows) as (P1 & P2); [intros r X; discriminate X|exact Ec|exact Er|].
  change (Nat.min (length (s_search st)) n_vals) with k in P1, P2. change (length (s_search st)) with n in P1, P2. rewrite Ev in P1. injection P1 as P1. destruct HP as (Q1 & Q2 & Q3 & Q4 & Q5).
  assert (Q : eigenpairs n (s_sub st) k (eigh L n (s_sub st) k)) by (split; [auto|split; [auto|split; [auto|split; auto]]]).
  assert (Hs : forall i j, i < n -> j < n -> s_sub st i j = inner N (at_ (s_search st) i) (matvec L (at_ (s_search st) j))) by (intros i j Hi Hj; rewrite Hp by auto; apply Hc; auto).
  pose proof (galerkin N L (s_search st) (s_sub st) k _ Ho HL Hs Q) as G. rewrite <- P1, <- P2 in G. rewrite <- P1 in Q1. rewrite <- P2 in Q2.
  assert (At : forall i, i < k -> at_ (map (fun r => trans_vec N r (s_search st)) rows) i = trans_vec N (nth i rows []) (s_search st)).
  { intros i Hi. unfold at_. rewrite (nth_indep _ _ (trans_vec N [] (s_search st))) by (rewrite map_length; lia). apply map_nth with (f := fun r => trans_vec N r (s_search st)). }
  split; [exact Q1|]. split; [rewrite map_length; exact Q2|]. split; [|split].
  - intros i j Hi Hj. rewrite map_length, Q2 in Hi, Hj. rewrite !At by auto. apply (G i Hi). exact Hj.
  - apply Forall_forall. intros u Hu. apply (In_nth _ _ []) in Hu as (i & Hi & <-). rewrite map_length, Q2 in Hi. change (nth i (map (fun r => trans_vec N r (s_search st)) rows) []) with (at_ (map (fun r => trans_vec N r (s_search st)) rows) i).
    rewrite At by auto. apply (G i Hi).
  - intros i w Hi Hw. rewrite At by auto. destruct (G i Hi) as (_ & R & _). specialize (R w Hw). rewrite inner_sub, inner_scale in R. apply sub_zero in R. exact R.
Qed.
Print Assumptions C62_galerkin.

(** In search mode the first vector is kept, up to its norm, and at least [n_vals] vectors are
    returned unless all cycles are used. *)
Theorem C62_search (K : StarRing) N (L : @library K) max_cycle msc n_vals v vs pre :
  (forall t, length (orth L t) <= length t) -> eigh_sizes (eigh L) -> 1 <= n_vals -> length (v :: vs) <= msc + 3 * n_vals -> gs_big L v = true ->
  exists ws st, kernel_search N L (S max_cycle) msc n_vals (v :: vs) pre = Ok (vscale N (inv_norm L v) v :: ws, st) /\
  (S (length ws) < n_vals -> length (s_log st) = S max_cycle).
Proof.
  intros HS HE Hv Hl Hb. destruct (gs_first N L v vs Hb) as (r & Er). unfold kernel_search.
  destruct (search_total N L msc n_vals HE HS Hv (S max_cycle) (init (v :: vs) pre []) eq_refl) as (st & E); [exact Hl|cbn [init s_search s_trial step_on app]; rewrite Er; discriminate|].
  rewrite E. cbn [bind]. destruct (search_first N L msc n_vals HE max_cycle (init (v :: vs) pre []) st eq_refl E) as (r' & X). cbn [init s_search s_trial step_on app] in X. rewrite Er in X. cbn [app] in X.
  exists (r ++ r'), st. split; [rewrite X; reflexivity|]. intros Hlt. apply (search_grows N L msc n_vals HE (S max_cycle) (init (v :: vs) pre []) st eq_refl E). rewrite X. exact Hlt.
Qed.
Print Assumptions C62_search.

(** ** Examples *)
(** Over the integers a list of vectors is kept by [orth] if it is orthonormal, and a vector can
    be normalised if its norm is one. *)
Definition onb (N : nat) (l : list (list Z)) : bool :=
  forallb (fun i => forallb (fun j => Z.eqb (@inner Z_star N (@at_ Z_star l i) (@at_ Z_star l j)) (if Nat.eqb i j then 1 else 0)%Z) (seq 0 (length l))) (seq 0 (length l)) && forallb (fun v => Nat.eqb (length v) N) l.
Definition orthZ (N : nat) (t : list (list Z)) : list (list Z) := if onb N t then t else [].
Lemma orthZ_ok N : @orth_ok Z_star N (orthZ N).
Proof.
  intros t _. unfold orthZ. destruct (onb N t) eqn:E; [|split; [cbn; lia|split; [intros i j Hi; cbn in Hi; lia|split; constructor]]].
  apply andb_true_iff in E as [E F]. split; [auto|]. rewrite forallb_forall in E, F. split; [|split].
  - intros i j Hi Hj. assert (Hi' : In i (seq 0 (length t))) by (apply in_seq; lia). specialize (E i Hi'). rewrite forallb_forall in E. assert (Hj' : In j (seq 0 (length t))) by (apply in_seq; lia).
    specialize (E j Hj'). apply Z.eqb_eq in E. exact E.
  - apply Forall_forall. intros v Hv. apply Nat.eqb_eq. apply F. exact Hv.
  - apply Forall_forall. intros v Hv. apply (In_nth _ _ []) in Hv as (a & Ha & <-). exists (fun i => delta i a). intros k Hk. symmetry. apply (sumn_delta Z_star (length t) a (fun i => nth k (@at_ Z_star t i) r0)). exact Ha.
Qed.
Lemma orthZ_len N t : length (orthZ N t) <= length t.
Proof. unfold orthZ. destruct (onb N t); [auto|cbn; lia]. Qed.
Definition bigZ (N : nat) (v : list Z) : bool := Z.eqb (@inner Z_star N v v) 1.
Lemma bigZ_ok N : @norm_ok Z_star N (bigZ N) (fun _ => 1%Z).
Proof. intros v H. apply Z.eqb_eq in H. split; [reflexivity|]. change (1 * 1 * @inner Z_star N v v = 1)%Z. rewrite H. reflexivity. Qed.
(** The first [k] diagonal entries with unit vectors: right for diagonal matrices *)
Definition eighZ (n : nat) (s : nat -> nat -> Z) (k : nat) : list Z * list (list Z) :=
  (map (fun i => s i i) (seq 0 k), map (fun i => map (fun b => if Nat.eqb i b then 1 else 0)%Z (seq 0 n)) (seq 0 k)).
Lemma eighZ_sizes : @eigh_sizes Z_star eighZ.
Proof. intros n s k. cbn [eighZ fst snd]. rewrite !map_length, seq_length. auto. Qed.
(** Multiplication by a matrix given by rows *)
Definition mulZ (N : nat) (rows : list (list Z)) (v : list Z) : list Z := map (fun r => fold_right Z.add 0%Z (map (fun k => (nth k r 0 * nth k v 0)%Z) (seq 0 N))) rows.
Definition libZ (N : nat) (rows : list (list Z)) : @library Z_star :=
  @mkLib Z_star (mulZ N rows) (orthZ N) eighZ (fun _ => 1%Z) (bigZ N) (bigZ N) (fun _ _ _ => true) (fun x => x) (fun r _ _ => r).
Definition flip : list (list Z) := [[0; 1]; [1; 0]]%Z.
Lemma flip_hermitian : @hermitian Z_star 2 (mulZ 2 flip).
Proof. intros [|a [|b [|y u]]] [|c [|d [|z v]]] Hu Hv; try discriminate. cbn - [Z.mul Z.add]. lia. Qed.
Lemma flip_linear : @linear Z_star 2 (mulZ 2 flip).
Proof. exists (fun k l => nth l (nth k flip []) 0%Z). intros v [|[|k]] Hk; [| |lia]; cbn - [Z.mul Z.add]; lia. Qed.
Definition view {X} (r : res (list X * list (list X) * @state Z_star)) := match r with Ok (vals, us, st) => Ok (vals, us, length (s_log st), s_search st) | Raise e => Raise e end.

(** Two cycles: the second space has the residual as second vector. *)
Example C49_all_cycles_ex : kernel_eig 2 (libZ 2 flip) 2 3 1 [[1; 0]]%Z None <> Raise TypeError /\
  match kernel_eig 2 (libZ 2 flip) 2 3 1 [[1; 0]]%Z None with Ok (vals, us, st) => vals = [0]%Z /\ us = [[1; 0]]%Z /\ length (s_log st) = 2 /\ s_search st = [[1; 0]; [0; 1]]%Z | Raise _ => False end.
Proof. vm_compute. split; [discriminate|repeat split]. Qed.
Example C49_bounded_ex : (forall t, length (orth (libZ 2 flip) t) <= length t) /\ eigh_sizes (eigh (libZ 2 flip)) /\ kernel_eig 2 (libZ 2 flip) 2 3 1 [[1; 1]]%Z None = Raise ValueError.
Proof. split; [intros t; apply orthZ_len|split; [exact eighZ_sizes|vm_compute; reflexivity]]. Qed.
Example C49_overfull_ex : let vs := [[1; 0; 0; 0]; [0; 1; 0; 0]; [0; 0; 1; 0]; [0; 0; 0; 1]]%Z in
  length (orth (libZ 4 []) vs) = 4 /\ kernel_eig 4 (libZ 4 []) 2 0 1 vs None = Raise IndexError /\ kernel_eig 4 (libZ 4 []) 2 1 1 vs None <> Raise IndexError.
Proof. vm_compute. repeat split; discriminate. Qed.
(** Three vectors in a space of size three: the preconditioner sending everything to zero is not used. *)
Example C49_restart_forgets_ex : let vs := [[1; 0; 0]; [0; 1; 0]; [0; 0; 1]]%Z in let L := libZ 3 [[0; 1; 0]; [1; 0; 1]; [0; 1; 0]]%Z in
  0 + 3 * 1 < Nat.min (length (orth L vs)) 1 + length (orth L vs) /\
  view (kernel_eig 3 L 3 0 1 vs (Some (fun _ _ _ => [0; 0; 0]%Z))) = Ok ([0]%Z, [[1; 0; 0]]%Z, 3, [[1; 0; 0]; [0; 1; 0]]%Z) /\
  view (kernel_eig 3 L 3 0 1 [[1; 0; 0]]%Z (Some (fun _ _ _ => [0; 0; 0]%Z))) = Ok ([0]%Z, [[1; 0; 0]]%Z, 3, [[1; 0; 0]]%Z).
Proof. vm_compute. repeat split; lia. Qed.
(** A chain of three sites: each cycle adds the next site, the third restarts. *)
Definition libT : @library Z_star :=
  @mkLib Z_star (mulZ 3 [[0; 1; 0]; [1; 0; 1]; [0; 1; 0]]%Z) (fun t => t) (fun n s k => (map (fun i => s i i) (seq 0 k), map (fun i => map (fun b => if Nat.eqb (S b) n then 1 else 0)%Z (seq 0 n)) (seq 0 k)))
    (fun _ => 1%Z) (bigZ 3) (fun _ => true) (fun _ _ _ => true) (fun x => x) (fun r _ _ => r).
Example C49_last_cycle_refuted_ex : kernel_eig 3 libT 3 0 1 [[1; 0; 0]]%Z None = Raise TypeError /\ kernel_eig 3 libT 99 0 1 [[1; 0; 0]]%Z None = Raise TypeError /\
  view (kernel_eig 3 libT 2 0 1 [[1; 0; 0]]%Z None) = Ok ([0]%Z, [[0; 1; 0]]%Z, 2, [[1; 0; 0]; [0; 1; 0]]%Z).
Proof.
  split; [|split].
  - vm_compute. reflexivity.
  - apply (C49_last_cycle_refuted Z_star 3 libT 32 0 1); auto. intros n s k. cbn [libT eigh fst snd]. rewrite !map_length, seq_length. auto.
  - vm_compute. reflexivity.
Qed.
Example C50_projected_ex : hermitian 2 (matvec (libZ 2 flip)) /\ orth_ok 2 (orth (libZ 2 flip)) /\
  match kernel_eig 2 (libZ 2 flip) 2 3 1 [[1; 0]]%Z None with Ok (_, _, st) => map (fun e => length (fst e)) (s_log st) = [1; 2] /\ map (fun i => map (s_sub st i) [0; 1]) [0; 1] = [[0; 1]; [1; 0]]%Z | Raise _ => False end.
Proof. split; [exact flip_hermitian|split; [exact (orthZ_ok 2)|vm_compute; split; reflexivity]]. Qed.
Example C50_search_projected_ex : norm_ok 2 (gs_big (libZ 2 flip)) (inv_norm (libZ 2 flip)) /\
  match kernel_search 2 (libZ 2 flip) 5 3 2 [[1; 0]]%Z None with Ok (ws, st) => ws = [[1; 0]; [0; 1]]%Z /\ length (s_log st) = 1 /\ map (fun i => map (s_sub st i) [0; 1]) [0; 1] = [[0; 1]; [1; 0]]%Z | Raise _ => False end.
Proof. split; [exact (bigZ_ok 2)|vm_compute; repeat split]. Qed.

(** The matrix [0, -i; i, 0]: the matrix stored is zero, and so are the eigenvalues found. *)
Definition sigma_y (v : list G_star) : list G_star := [@rmul G_star (0, -1)%Z (nth 1 v r0); @rmul G_star (0, 1)%Z (nth 0 v r0)].
Definition reG (x : G_star) : G_star := (fst x, 0%Z).
Definition geq (x y : Z * Z) : bool := Z.eqb (fst x) (fst y) && Z.eqb (snd x) (snd y).
Definition onbG (N : nat) (l : list (list G_star)) : bool :=
  forallb (fun i => forallb (fun j => geq (inner N (at_ l i) (at_ l j)) (if Nat.eqb i j then (1, 0) else (0, 0))%Z) (seq 0 (length l))) (seq 0 (length l)) && forallb (fun v => Nat.eqb (length v) N) l.
Definition orthG (N : nat) (t : list (list G_star)) : list (list G_star) := if onbG N t then t else [].
Lemma orthG_ok N : orth_ok N (orthG N).
Proof.
  intros t _. unfold orthG. destruct (onbG N t) eqn:E; [|split; [cbn; lia|split; [intros i j Hi; cbn in Hi; lia|split; constructor]]].
  apply andb_true_iff in E as [E F]. split; [auto|]. rewrite forallb_forall in E, F. split; [|split].
  - intros i j Hi Hj. assert (Hi' : In i (seq 0 (length t))) by (apply in_seq; lia). specialize (E i Hi'). rewrite forallb_forall in E. assert (Hj' : In j (seq 0 (length t))) by (apply in_seq; lia).
    specialize (E j Hj'). apply andb_true_iff in E as [E1 E2]. apply Z.eqb_eq in E1, E2. unfold delta. destruct (Nat.eqb i j); destruct (inner N (at_ t i) (at_ t j)) as [x y]; cbn [fst snd] in E1, E2; subst; reflexivity.
  - apply Forall_forall. intros v Hv. apply Nat.eqb_eq. apply F. exact Hv.
  - apply Forall_forall. intros v Hv. apply (In_nth _ _ []) in Hv as (a & Ha & <-). exists (fun i => delta i a). intros k Hk. symmetry. apply (sumn_delta G_star (length t) a (fun i => nth k (at_ t i) r0)). exact Ha.
Qed.
Definition libG : @library G_star :=
  @mkLib G_star sigma_y (orthG 2) (fun n s k => (map (fun i => s i i) (seq 0 k), map (fun i => map (fun b => if Nat.eqb i b then (1, 0) else (0, 0))%Z (seq 0 n)) (seq 0 k)))
    (fun _ => (1, 0)%Z) (fun _ => false) (fun _ => false) (fun _ _ _ => true) reG (fun r _ _ => r).
Lemma sigma_hermitian : hermitian 2 sigma_y.
Proof.
  intros [|[a a'] [|[b b'] [|y u]]] [|[c c'] [|[d d'] [|z v]]] Hu Hv; try discriminate. unfold inner, sigma_y. cbn - [Z.mul Z.add Z.sub Z.opp]. f_equal; lia.
Qed.
Example C50_complex_refuted_ex : hermitian 2 (matvec libG) /\ orth_ok 2 (orth libG) /\ (forall x, cast libG (rconj (cast libG x)) = cast libG (rconj x)) /\
  match kernel_eig 2 libG 1 3 2 [[(1, 0); (0, 0)]; [(0, 0); (1, 0)]]%Z None with
  | Ok (vals, _, st) => vals = [(0, 0); (0, 0)]%Z /\ map (fun i => map (s_sub st i) [0; 1]) [0; 1] = [[(0, 0); (0, 0)]; [(0, 0); (0, 0)]]%Z
  | Raise _ => False
  end /\ @inner G_star 2 [(1, 0); (0, 0)]%Z (sigma_y [(0, 0); (1, 0)]%Z) = (0, -1)%Z.
Proof. split; [exact sigma_hermitian|]. split; [exact (orthG_ok 2)|]. split; [intros [x y]; reflexivity|]. vm_compute. repeat split. Qed.

(** One cycle with one vector: the residual is the second unit vector. *)
Example C62_galerkin_ex : linear 2 (matvec (libZ 2 flip)) /\
  match kernel_eig 2 (libZ 2 flip) 1 3 1 [[1; 0]]%Z None with
  | Ok (vals, us, st) => eigenpairs 1 (s_sub st) 1 (eigh (libZ 2 flip) 1 (s_sub st) 1) /\ us = [[1; 0]]%Z /\ s_res st = [[0; 1]]%Z
  | Raise _ => False
  end.
Proof.
  split; [exact flip_linear|]. vm_compute. split; [|auto]. repeat split.
  - intros [|i] Hi; [reflexivity|lia].
  - intros [|i] [|a] Hi Ha; try lia; reflexivity.
  - intros [|i] [|j] Hi Hj; try lia; reflexivity.
Qed.
Example C62_search_ex : let L := libZ 3 [[0; 1; 0]; [1; 0; 0]; [0; 0; 1]]%Z in
  match kernel_search 3 L 2 3 2 [[1; 0; 0]]%Z None with Ok (ws, st) => ws = [[1; 0; 0]; [0; 1; 0]]%Z /\ length (s_log st) = 1 | Raise _ => False end /\
  match kernel_search 3 L 7 3 3 [[1; 0; 0]]%Z None with Ok (ws, st) => ws = [[1; 0; 0]; [0; 1; 0]]%Z /\ length (s_log st) = 7 | Raise _ => False end.
Proof. vm_compute. repeat split. Qed.
